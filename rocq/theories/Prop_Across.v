(** C82: parallel nests with regular dependencies. *)
From Coq Require Import PeanoNat Bool List ZArith Lia.
From Verif Require Import AcrossModel AcrossSpec AcrossProof.
Import ListNotations.

Ltac inCases H := repeat (destruct H as [H|H]; [try discriminate; try subst|]); try (destruct H).
(* A[i][j] = A[i-1][j] + A[i][j-1], variables: i is 10, j is 11, a private variable is 12 *)
Definition accA : access := Access 0 [Sub 0 true [100]; Sub 1 true [101]].
Definition loopI : level := Level 100 10 true false true [11; 12] 0 (Some 1%Z)
  [Dep 0 [(1, 1); (0, 0)]%Z []] [accA; accA] true.
Definition loopJ : level := Level 101 11 true false true [12] 0 (Some (-1)%Z)
  [Dep 0 [(1, 2)]%Z [(3, 3)]%Z] [accA] false.
Definition nestIJ : directive := Directive [(100, 10); (101, 11)] [12] 0
  [(0, [(Some 1, None); (Some 3, Some 2)]%Z)] 2 true.
Lemma case_IJ : parallelize [loopI; loopJ] = Some nestIJ.
Proof. reflexivity. Qed.

Theorem C82_nest : C82_nest_claim.
Proof. exact nest_ok. Qed.
Print Assumptions C82_nest.
Example C82_nest_case : parallelize [loopI; loopJ] = Some nestIJ /\ length (xInduct nestIJ) = 2.
Proof. split; [exact case_IJ|reflexivity]. Qed.

Theorem C82_pairs : C82_pairs_claim.
Proof. exact pairs_ok. Qed.
Print Assumptions C82_pairs.
(* a dependence with a negative component *)
Definition loopN : level := Level 100 10 true false true [11; 12] 0 (Some 1%Z)
  [Dep 0 [(2, 2); (-1, -1)]%Z []] [accA] true.
Definition loopM : level := Level 101 11 true false true [12] 0 (Some 1%Z) [] [accA] false.
Example C82_pairs_case : exists x, parallelize [loopN; loopM] = Some x /\ length (xInduct x) = 2 /\
  vectors (Dep 0 [(2, 2); (-1, -1)]%Z []) [(2, 2); (-1, -1)]%Z /\ carried [(2, 2); (-1, -1)]%Z /\
  within [(2, 2); (-1, -1)]%Z [2; -1]%Z.
Proof.
  eexists. split; [reflexivity|]. split; [reflexivity|]. split; [split; [now left|discriminate]|]. split; [reflexivity|].
  repeat constructor; cbn; lia.
Qed.

(** The full statement is C82_fronts_claim false. *)
Theorem C82_fronts_partial : C82_fronts_claim true.
Proof. exact fronts_ok. Qed.
Print Assumptions C82_fronts_partial.
Example C82_fronts_case : exists x, parallelize [loopN; loopM] = Some x /\ length (xInduct x) <= 2 /\
  (0 < sum [2; -1])%Z.
Proof. eexists. split; [reflexivity|]. split; [cbn; lia|reflexivity]. Qed.
(** Negative components are compared with the first one separately: the distance (2, -1, -1) is
    accepted in a nest of three loops. *)
Theorem C82_fronts_refuted : ~ C82_fronts_claim false.
Proof.
  intro H.
  set (l0 := Level 100 10 true false true [11; 12] 0 (Some 1%Z) [Dep 0 [(2, 2); (-1, -1); (-1, -1)]%Z []] [accA] true).
  set (l1 := Level 101 11 true false true [12] 0 (Some 1%Z) [] [accA] true).
  set (l2 := Level 102 12 true false true [] 0 (Some 1%Z) [] [accA] false).
  destruct (H [l0; l1; l2] (Directive [(100, 10); (101, 11); (102, 12)] [] 0 [(0, [(Some 2%Z, None); (None, None)])] 3 true)
    eq_refl ltac:(discriminate) 0 l0 (Dep 0 [(2, 2); (-1, -1); (-1, -1)]%Z []) [(2, 2); (-1, -1); (-1, -1)]%Z
    [2; -1; -1]%Z) as [_ Q].
  - reflexivity.
  - cbn. lia.
  - now left.
  - split; [now left|discriminate].
  - reflexivity.
  - repeat constructor; cbn; lia.
  - cbn in Q. lia.
Qed.
Print Assumptions C82_fronts_refuted.

(** The full statement is C82_across_claim false. *)
Theorem C82_across_partial : C82_across_claim true.
Proof. exact across_ok. Qed.
Print Assumptions C82_across_partial.
Example C82_across_case : parallelize [loopI; loopJ] = Some nestIJ /\ wellFormed (fun _ => 2) [loopI; loopJ] /\
  mentions 100 accA /\ mentions 101 accA.
Proof.
  split; [exact case_IJ|]. split; [|split].
  - split; [|split; [|split]].
    + cbn. repeat constructor; cbn; intuition discriminate.
    + intros l a L A. inCases L; cbn in A; inCases A; reflexivity.
    + intros l L. inCases L; cbn; repeat constructor; auto.
    + intros i j l l' a IJ L L' A. destruct i as [|[|i]]; [| |destruct i; discriminate]; cbn in L; injection L as <-.
      * destruct j as [|[|j]]; [| |destruct j; discriminate]; cbn in L'; injection L' as <-; cbn in *; tauto.
      * destruct j as [|[|j]]; [lia| |destruct j; discriminate]. cbn in L'. injection L' as <-. exact A.
  - exists (Sub 0 true [100]). split; [now left|now left].
  - exists (Sub 1 true [101]). split; [right; now left|now left].
Qed.
(** A[j] is accessed before A[i]: the dimension with the index of another loop is not rejected. *)
Theorem C82_across_refuted : ~ C82_across_claim false.
Proof.
  intro H.
  set (aj := Access 0 [Sub 0 true [101]]). set (ai := Access 0 [Sub 0 true [100]]).
  set (l0 := Level 100 10 true false true [12] 0 (Some 1%Z) [Dep 0 [(1, 1)]%Z []] [aj; ai] false).
  destruct (H (fun _ => 1) [l0] (Directive [(100, 10)] [12] 0 [(0, [(Some 1%Z, None)])] 1 true) eq_refl) with
    (k := 0) (l := l0) (d := Dep 0 [(1, 1)]%Z []) as (step & dim & vec & lo & hi & _ & IV & LV & NV & _ & AL); try reflexivity.
  - split; [|split; [|split]].
    + cbn. repeat constructor; cbn; intuition discriminate.
    + intros l a L A. inCases L; cbn in A; inCases A; reflexivity.
    + intros l L. inCases L; cbn; repeat constructor; auto.
    + intros i j l l' a IJ L L' A. destruct i as [|i]; [|destruct i; discriminate]. destruct j as [|j]; [|destruct j; discriminate].
      cbn in L, L'. injection L as <-. injection L' as <-. exact A.
  - discriminate.
  - cbn. lia.
  - now left.
  - assert (D : dim = 0).
    { assert (LT : dim < length vec) by (apply nth_error_Some; rewrite NV; discriminate). rewrite LV in LT. lia. }
    subst dim. pose proof (AL aj (or_introl eq_refl) eq_refl (Sub 0 true [101]) (or_introl eq_refl) 101 (or_introl eq_refl)) as Q.
    cbn in Q. destruct Q as [Q _]. specialize (Q eq_refl). discriminate.
Qed.
Print Assumptions C82_across_refuted.

(** The full statement is C82_kept_claim false. *)
Theorem C82_kept_partial : C82_kept_claim true.
Proof. exact kept_ok. Qed.
Print Assumptions C82_kept_partial.
Example C82_kept_case :
  let x := Directive [(100, 10)] [11; 12] 0 [] 0 false in
  let l := Level 101 11 true true true [12] 0 (Some 1%Z) [] [] false in
  xInduct (exploitInner l x) = xInduct x /\ In (vInduct l) (xPrivate x) /\ vDeps l = [].
Proof. cbn. auto. Qed.
(** The induction variable of a loop with an unknown step is not private any more. *)
Theorem C82_kept_refuted : ~ C82_kept_claim false.
Proof.
  intro H.
  destruct (H (Level 101 11 true false true [12] 0 None [Dep 0 [(1, 1)]%Z []] [accA] false)
    (Directive [(100, 10)] [11; 12] 0 [] 0 false)) as [_ Q]; try reflexivity.
  - now left.
  - discriminate.
  - destruct (Q 11) as [_ Q']. cbn in Q'. specialize (Q' (or_introl eq_refl)). intuition discriminate.
Qed.
Print Assumptions C82_kept_refuted.
