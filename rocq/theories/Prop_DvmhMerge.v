(** C81: regions around parallel loops and merging of neighbouring regions. *)
From Coq Require Import PeanoNat Bool List ZArith Lia.
From Verif Require Import DvmhMergeModel DvmhMergeSpec DvmhMergeProof.
Import ListNotations.

(* store x + 1 in y *)
Definition inc (x y : nat) (m : values) : values := fun v => if Nat.eqb v y then (m x + 1)%Z else m v.
Lemma inc_obeys x y n : nIn n = [x] -> nOut n = [y] -> obeys n (inc x y).
Proof.
  intros E1 E2. unfold obeys. rewrite E1, E2. split.
  - intros m v H. unfold inc. destruct (Nat.eqb_spec v y) as [->|N]; [destruct H; now left|reflexivity].
  - intros m m' v H [<-|[]]. unfold inc. rewrite Nat.eqb_refl. now rewrite (H x (or_introl eq_refl)).
Qed.
Lemma inc_ext x y m m' : (forall v, m v = m' v) -> forall v, inc x y m v = inc x y m' v.
Proof. intros H v. unfold inc. now rewrite !H. Qed.
(* loops 0, 1 and 3 are for a device, 2 is for a host *)
Definition caseInfo (i : nat) : info :=
  match i with
  | 0 => Info false [0] [1] [5]
  | 1 => Info false [1] [2] []
  | 2 => Info true [] [] []
  | _ => Info false [2] [3] []
  end.
Definition caseProgram : program :=
  [(Some 0, inc 0 1); (Some 1, inc 1 2); (None, inc 2 2); (Some 3, inc 2 3)].
Definition zero : memory := Memory (fun _ => 0%Z) (fun _ => (-1)%Z) (fun _ => false).
Ltac inCases H := repeat (destruct H as [H|H]; [try discriminate; try (injection H as <- <-)|]); try (destruct H).
Lemma case_analyzed : analyzed caseInfo caseProgram.
Proof.
  split; [|split].
  - cbn. repeat constructor; cbn; intuition discriminate.
  - intros c f H. inCases H; apply inc_ext.
  - intros i f H _. cbn in H. inCases H; now apply inc_obeys.
Qed.

(** A program with a region around each loop gives the same results. *)
Theorem C81_initial : C81_initial_claim.
Proof. exact initial_ok. Qed.
Print Assumptions C81_initial.
Example C81_initial_case : analyzed caseInfo caseProgram /\
  map (mHostVal (execute (initial caseInfo) caseProgram None zero)) [0; 1; 2; 3] = [0; 1; 3; 4]%Z.
Proof. split; [exact case_analyzed|reflexivity]. Qed.

(** The full statement is C81_results_claim false. *)
Theorem C81_results_partial : C81_results_claim true.
Proof. exact results_ok. Qed.
Print Assumptions C81_results_partial.
Example C81_results_case : analyzed caseInfo caseProgram /\ sameKind caseInfo (children caseProgram) /\
  exists L, mergeSiblings (children caseProgram) (initial caseInfo) = Some L /\
  pGet (L 0) = None /\ pRegion (L 1) = None /\ pGet (L 1) = Some [2; 1] /\
  map (mHostVal (execute L caseProgram None zero)) [0; 1; 2; 3] = [0; 1; 3; 4]%Z.
Proof. split; [exact case_analyzed|]. split; [cbn; auto|]. eexists. split; [reflexivity|]. repeat split. Qed.
(** A loop for a host is merged with a loop for a device and it is executed on the device. *)
Theorem C81_results_refuted : ~ C81_results_claim false.
Proof.
  intro H. destruct (H caseInfo [(Some 0, inc 0 1); (Some 2, inc 1 2)] zero) as (L & E & Q).
  - split; [|split].
    + cbn. repeat constructor; cbn; intuition discriminate.
    + intros c f F. inCases F; apply inc_ext.
    + intros i f F N. cbn in F. inCases F; [now apply inc_obeys|discriminate].
  - reflexivity.
  - discriminate.
  - vm_compute in E. injection E as <-. specialize (Q 2). discriminate.
Qed.
Print Assumptions C81_results_refuted.

(** The full statement is C81_groups_claim false. *)
Theorem C81_groups_partial : C81_groups_claim true.
Proof. exact groups_ok. Qed.
Print Assumptions C81_groups_partial.
Example C81_groups_case : sameKind caseInfo [Some 0; Some 1; None; Some 2; None; Some 3] /\
  NoDup (loopsOf [Some 0; Some 1; None; Some 2; None; Some 3]) /\
  groups caseInfo [Some 0; Some 1; None; Some 2; None; Some 3] = [[0; 1]; [2]; [3]].
Proof. split; [cbn; auto 10|]. split; [|reflexivity]. cbn. repeat constructor; cbn; intuition discriminate. Qed.
(** Two merged loops before a loop for a host: these loops are merged again and directives which have
    been removed are accessed. *)
Theorem C81_groups_refuted : ~ C81_groups_claim false.
Proof.
  intro H. destruct (H caseInfo [Some 0; Some 1; Some 2]) as (L & E & _).
  - cbn. repeat constructor; cbn; intuition discriminate.
  - discriminate.
  - vm_compute in E. discriminate.
Qed.
Print Assumptions C81_groups_refuted.
