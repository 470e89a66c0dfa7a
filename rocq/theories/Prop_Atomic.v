(** Properties of atomically moved files, C93. *)
From Coq Require Import PeanoNat Bool List.
From Verif Require Import OutFileModel AtomicModel AtomicSpec AtomicProof.
Import ListNotations.

(** At each crash point each file is as before or is complete if temporary files can be
    created and a disk is not full. *)
Theorem C93_atomic_partial : C93_atomic_claim true true.
Proof. exact atomic_true. Qed.
Print Assumptions C93_atomic_partial.
(** A file is written in place if a temporary file can not be created. *)
Theorem C93_atomic_refuted_direct : ~ C93_atomic_claim false true.
Proof. exact atomic_direct. Qed.
Print Assumptions C93_atomic_refuted_direct.
(** An incomplete temporary file is moved over a source file if a disk is full. *)
Theorem C93_atomic_refuted_full : ~ C93_atomic_claim true false.
Proof. exact atomic_full. Qed.
Print Assumptions C93_atomic_refuted_full.

(** Result of a finished release. *)
Theorem C93_result_partial : C93_result_claim true.
Proof. exact result_true. Qed.
Print Assumptions C93_result_partial.
Theorem C93_result_refuted_same : ~ C93_result_claim false.
Proof. exact result_same. Qed.
Print Assumptions C93_result_refuted_same.

(** The main file. *)
Theorem C93_main_partial : C93_main_claim true.
Proof. exact main_true. Qed.
Print Assumptions C93_main_partial.
Theorem C93_main_refuted_same : ~ C93_main_claim false.
Proof. exact main_same. Qed.
Print Assumptions C93_main_refuted_same.

(** Errors are reported without a crash if files can be opened. *)
Theorem C93_nofatal_partial : C93_nofatal_claim true.
Proof. exact nofatal_true. Qed.
Print Assumptions C93_nofatal_partial.
Theorem C93_nofatal_refuted_closed : ~ C93_nofatal_claim false.
Proof. exact nofatal_closed. Qed.
Print Assumptions C93_nofatal_refuted_closed.

(** Everything is written if there are no errors. *)
Theorem C93_works : C93_works_claim.
Proof. exact works_true. Qed.
Print Assumptions C93_works.

(** Temporary files do not remain when a release has been finished, even if it has
    crashed on a stream, but a signal in the middle leaves them. *)
Theorem C93_signal_partial : C93_signal_claim true.
Proof. exact signal_true. Qed.
Print Assumptions C93_signal_partial.
Theorem C93_signal_refuted_middle : ~ C93_signal_claim false.
Proof. exact signal_left. Qed.
Print Assumptions C93_signal_refuted_middle.

(** Many files are not changed together. *)
Theorem C93_transaction_partial : C93_transaction_claim true.
Proof. exact transaction_true. Qed.
Print Assumptions C93_transaction_partial.
Theorem C93_transaction_refuted_two : ~ C93_transaction_claim false.
Proof. exact transaction_two. Qed.
Print Assumptions C93_transaction_refuted_two.

(** Two files are written, the first one is the main file. *)
Example C93_example_release :
  let bs := [bf 1 eGood [([8; 8], true); ([9], true)] true; bf 3 eGood [([4], true)] false] in
  let x := release sf bs in
  fresh_names sf bs /\ different bs /\ snd x = RDone true (Some (kf 1))
  /\ node_of (run (fst x) sf) (kf 1) = Some (Reg [8; 8; 9]) /\ node_of (run (fst x) sf) (kf 3) = Some (Reg [4])
  /\ node_of (run (fst x) sf) (kf 2) = Some (Reg [7])
  /\ node_of (run (firstn 2 (fst x)) sf) (kf 1) = Some (Reg [7; 7]).
Proof.
  cbv zeta. split; [apply two_fresh | ]. split.
  - repeat constructor; cbn; intros H; repeat (destruct H as [H | H]); try discriminate H; exact H.
  - repeat split.
Qed.
(** The main file is not renamed, the second file can not be written, the third one is written. *)
Example C93_example_errors :
  let bs := [bf 1 eNoRename [([8], true)] true; bf 2 eLocked [([9], true)] false; bf 3 eGood [([4], true)] false] in
  let x := release sf bs in
  fresh_names sf bs /\ snd x = RDone false None
  /\ node_of (run (fst x) sf) (kf 1) = Some (Reg [7; 7]) /\ node_of (run (fst x) sf) (kf 2) = Some (Reg [7])
  /\ node_of (run (fst x) sf) (kf 3) = Some (Reg [4]).
Proof.
  cbv zeta. split; [ | repeat split]. apply sf_fresh. intros b [<- | [<- | [<- | []]]]; eexists; reflexivity.
Qed.
