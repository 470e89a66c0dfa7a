(** Property C90. *)
From Coq Require Import PeanoNat Bool List Lia.
From Verif Require Import OutFileModel OutFileSpec OutFileProof OutFileProof2.
Import ListNotations.

(** ** A concrete file system: the file 1 in the directory 0 contains the byte 7. *)
Definition ex_key : key := (0, Base 1).
Definition ex_tmp : key := (0, TmpOf (Base 1) 5).
Definition ex_fs : fsys := FS (fun k => if key_eq_dec k ex_key then Some (Reg [7]) else None) [] (fun _ => false).
Definition ex_env (t : tmpres) (kr : keepres) : env := Env 0 true t true true true 5 kr.
Definition ex_cs : list (list nat * bool) := [([1], true); ([2; 3], true)].
Definition ex_bad : list (list nat * bool) := [([1], true); ([2; 3], false)].

Lemma ex_fresh : forall t kr, fresh (ex_env t kr) ex_fs (Rel (Base 1)).
Proof.
  intros t kr. split; [ | reflexivity]. intros k ->. reflexivity.
Qed.
Lemma ex_used : forall kr mkd, temp_used (ex_env TmpOk kr) ex_fs (Rel (Base 1)) true mkd.
Proof.
  intros kr mkd. split; [reflexivity | ]. split; [reflexivity | ]. split; [left; reflexivity | ].
  intros k ->. discriminate.
Qed.
Lemma ex_used_mkdir : forall kr, temp_used (ex_env TmpNoDir kr) ex_fs (Rel (Base 1)) true true.
Proof.
  intros kr. split; [reflexivity | ]. split; [reflexivity | ]. split; [right; repeat split | ].
  intros k ->. discriminate.
Qed.
Lemma ex_not_tmp : forall t kr, ~ temporary (ex_env t kr) (Rel (Base 1)) ex_key.
Proof. intros t kr H. discriminate H. Qed.

(** At each crash point each file is old or complete. *)
Theorem C90_atomic_partial : C90_atomic_claim true true true.
Proof. exact atomic_true. Qed.
Print Assumptions C90_atomic_partial.

(** Hypotheses are met, the old content is visible before the rename and the
    complete new one after it, an I/O error keeps the old one. *)
Example C90_atomic_example :
  fresh (ex_env TmpOk KRename) ex_fs (Rel (Base 1))
  /\ temp_used (ex_env TmpOk KRename) ex_fs (Rel (Base 1)) true true
  /\ no_copy (ex_env TmpOk KRename)
  /\ let x := session (ex_env TmpOk KRename) ex_fs (Rel (Base 1)) true true true ex_cs [(None, false)] in
     snd x = Done /\ length (fst x) = 6
     /\ node_of (run (firstn 4 (fst x)) ex_fs) ex_key = Some (Reg [7])
     /\ node_of (run (firstn 4 (fst x)) ex_fs) ex_tmp = Some (Reg [1; 2; 3])
     /\ node_of (run (firstn 5 (fst x)) ex_fs) ex_key = Some (Reg [1; 2; 3])
     /\ node_of (run (firstn 5 (fst x)) ex_fs) ex_tmp = None
  /\ let y := session (ex_env TmpNoDir KRename) ex_fs (Rel (Base 1)) true true true ex_bad [(Some 4, false)] in
     snd y = Fatal /\ node_of (final ex_fs y) ex_key = Some (Reg [7]) /\ node_of (final ex_fs y) ex_tmp = None.
Proof.
  split; [apply ex_fresh | ]. split; [apply ex_used | ]. split; [intros n ok l; discriminate | ].
  vm_compute. repeat split.
Qed.

(** A file written directly is seen incomplete. *)
Theorem C90_atomic_refuted_direct : ~ C90_atomic_claim false true true.
Proof.
  intros H.
  specialize (H (ex_env TmpErr KRename) ex_fs (Rel (Base 1)) true true true ex_cs [(None, false)] _ _ 2 ex_key None
    (ex_fresh _ _) eq_refl ltac:(discriminate) ltac:(intros _ n ok l; discriminate)
    (ex_intro _ [] eq_refl) (ex_not_tmp _ _)).
  destruct H as [H | [_ [H _]]]; vm_compute in H; discriminate H.
Qed.
Print Assumptions C90_atomic_refuted_direct.
(** A copied file is seen incomplete. *)
Theorem C90_atomic_refuted_copy : ~ C90_atomic_claim true false true.
Proof.
  intros H.
  specialize (H (ex_env TmpOk (KCopy 1 true false)) ex_fs (Rel (Base 1)) true true true ex_cs [(None, false)] _ _ 6 ex_key None
    (ex_fresh _ _) eq_refl (fun _ => ex_used _ _) ltac:(discriminate)
    (ex_intro _ [] eq_refl) (ex_not_tmp _ _)).
  destruct H as [H | [_ [H _]]]; vm_compute in H; discriminate H.
Qed.
Print Assumptions C90_atomic_refuted_copy.
(** An output which is not kept removes the previous file, although a temporary
    file has been used. *)
Theorem C90_atomic_refuted_erase : ~ C90_atomic_claim true true false.
Proof.
  intros H.
  specialize (H (ex_env TmpOk KRename) ex_fs (Rel (Base 1)) true true true ex_cs [] _ _ 7 ex_key None
    (ex_fresh _ _) eq_refl (fun _ => ex_used _ _) ltac:(intros _ n ok l; discriminate)
    (or_introl eq_refl) (ex_not_tmp _ _)).
  destruct H as [H | [_ [H _]]]; vm_compute in H; discriminate H.
Qed.
Print Assumptions C90_atomic_refuted_erase.

(** A successful [clear]. *)
Theorem C90_success_partial : C90_success_claim true true.
Proof. exact success_true. Qed.
Print Assumptions C90_success_partial.
Example C90_success_example :
  let x := session (ex_env TmpOk KRename) ex_fs (Rel (Base 1)) true true true ex_cs [(Some 3, false)] in
  let y := session (ex_env TmpErr KRename) ex_fs (Rel (Base 1)) true true true ex_cs [(None, false)] in
  let z := session (ex_env TmpOk (KCopy 2 true false)) ex_fs (Rel (Base 1)) true true true ex_cs [(None, false)] in
  snd x = Done /\ node_of (final ex_fs x) (3, Base 1) = Some (Reg [1; 2; 3]) /\ node_of (final ex_fs x) ex_key = Some (Reg [7])
  /\ snd y = Done /\ node_of (final ex_fs y) ex_key = Some (Reg [1; 2; 3])
  /\ snd z = Done /\ node_of (final ex_fs z) ex_key = Some (Reg [1; 2; 3]) /\ node_of (final ex_fs z) ex_tmp = None.
Proof. vm_compute. repeat split. Qed.
(** A file written directly ignores a working directory. *)
Theorem C90_success_refuted_workdir : ~ C90_success_claim false true.
Proof.
  intros H.
  specialize (H (ex_env TmpErr KRename) ex_fs (Rel (Base 1)) true true true ex_cs (Some 3) ex_key _
    (ex_fresh _ _) eq_refl eq_refl ltac:(discriminate) ltac:(intros _ n ok; discriminate)).
  destruct H as [_ H]. assert (N : ~ meant 0 (Some 3) (Rel (Base 1)) ex_key) by (intros E; discriminate E).
  specialize (H N). vm_compute in H. discriminate H.
Qed.
Print Assumptions C90_success_refuted_workdir.
Theorem C90_success_refuted_leave : ~ C90_success_claim true false.
Proof.
  intros H.
  specialize (H (ex_env TmpOk (KCopy 1 true true)) ex_fs (Rel (Base 1)) true true true ex_cs None ex_tmp _
    (ex_fresh _ _) eq_refl eq_refl (fun _ => or_introl (ex_used _ _)) ltac:(discriminate)).
  destruct H as [_ H]. assert (N : ~ meant 0 None (Rel (Base 1)) ex_tmp) by (intros E; discriminate E).
  specialize (H N). vm_compute in H. discriminate H.
Qed.
Print Assumptions C90_success_refuted_leave.

(** A failed session. *)
Theorem C90_failed_partial : C90_failed_claim true.
Proof. exact failed_true. Qed.
Print Assumptions C90_failed_partial.
Theorem C90_failed_refuted_copy : ~ C90_failed_claim false.
Proof.
  intros H.
  specialize (H (ex_env TmpOk (KCopy 1 false false)) ex_fs (Rel (Base 1)) true true true ex_cs [(None, false)] ex_key _
    (ex_fresh _ _) eq_refl (or_intror eq_refl) ltac:(discriminate)).
  vm_compute in H. discriminate H.
Qed.
Print Assumptions C90_failed_refuted_copy.
Theorem C90_create_error : C90_create_error_claim.
Proof. exact create_error_true. Qed.
Print Assumptions C90_create_error.
Example C90_failed_example :
  let x := session (ex_env TmpOk (KFail false)) ex_fs (Rel (Base 1)) true true true ex_cs [(None, false)] in
  let y := session (Env 0 false TmpOk true true true 5 KRename) ex_fs (Rel (Base 1)) true true true ex_cs [(None, false)] in
  snd x = ClearErr /\ node_of (final ex_fs x) ex_key = Some (Reg [7]) /\ node_of (final ex_fs x) ex_tmp = None
  /\ y = ([], CreateErr).
Proof. vm_compute. repeat split. Qed.

(** An abandoned output. *)
Theorem C90_abandon_partial : C90_abandon_claim true.
Proof. exact abandon_true. Qed.
Print Assumptions C90_abandon_partial.
(** The file which existed before is lost. *)
Theorem C90_abandon_refuted_exists : ~ C90_abandon_claim false.
Proof.
  intros H.
  specialize (H (ex_env TmpOk KRename) ex_fs (Rel (Base 1)) true true true ex_cs [] ex_key _
    (ex_fresh _ _) eq_refl eq_refl (or_introl eq_refl) ltac:(discriminate)).
  vm_compute in H. discriminate H.
Qed.
Print Assumptions C90_abandon_refuted_exists.
Theorem C90_erase_partial : C90_erase_claim true.
Proof. exact erase_true. Qed.
Print Assumptions C90_erase_partial.
(** A file in the current directory is removed instead of the one in a working
    directory. *)
Theorem C90_erase_refuted_workdir : ~ C90_erase_claim false.
Proof.
  intros H.
  assert (N : ~ meant 0 (Some 3) (Rel (Base 1)) ex_key) by (intros E; discriminate E).
  specialize (H (ex_env TmpOk KRename) ex_fs (Rel (Base 1)) true true true ex_cs (Some 3) ex_key _
    (ex_fresh _ _) eq_refl eq_refl ltac:(discriminate) N).
  vm_compute in H. discriminate H.
Qed.
Print Assumptions C90_erase_refuted_workdir.
Example C90_abandon_example :
  let x := session (ex_env TmpOk KRename) ex_fs (Rel (Base 2)) true true true ex_cs [] in
  let y := session (ex_env TmpErr KRename) ex_fs (Rel (Base 2)) true true true ex_cs [(None, true)] in
  snd x = Done /\ node_of (run (firstn 4 (fst x)) ex_fs) (0, TmpOf (Base 2) 5) = Some (Reg [1; 2; 3])
  /\ node_of (final ex_fs x) (0, Base 2) = None /\ node_of (final ex_fs x) (0, TmpOf (Base 2) 5) = None
  /\ snd y = Done /\ node_of (run (firstn 3 (fst y)) ex_fs) (0, Base 2) = Some (Reg [1; 2; 3])
  /\ node_of (final ex_fs y) (0, Base 2) = None /\ node_of (final ex_fs y) ex_key = Some (Reg [7]).
Proof. vm_compute. repeat split. Qed.

(** Temporary files. *)
Theorem C90_leftover_partial : C90_leftover_claim true.
Proof. exact leftover_true. Qed.
Print Assumptions C90_leftover_partial.
Theorem C90_leftover_refuted_copy : ~ C90_leftover_claim false.
Proof.
  intros H.
  specialize (H (ex_env TmpOk (KCopy 1 true true)) ex_fs (Rel (Base 1)) true true true ex_cs [(None, false)] ex_tmp _
    (ex_fresh _ _) eq_refl ltac:(discriminate) eq_refl).
  vm_compute in H. discriminate H.
Qed.
Print Assumptions C90_leftover_refuted_copy.

(** Signals. *)
Theorem C90_signal_partial : C90_signal_claim true true true true.
Proof. exact signal_true. Qed.
Print Assumptions C90_signal_partial.
Example C90_signal_example :
  let x := session (ex_env TmpOk KRename) ex_fs (Rel (Base 1)) true true true ex_cs [(None, false)] in
  node_of (signalled (run (firstn 3 (fst x)) ex_fs)) ex_tmp = None
  /\ node_of (signalled (run (firstn 3 (fst x)) ex_fs)) ex_key = Some (Reg [7])
  /\ node_of (signalled (run (firstn 5 (fst x)) ex_fs)) ex_key = Some (Reg [1; 2; 3]).
Proof. vm_compute. repeat split. Qed.
(** The flag RemoveFileOnSignal does not work for a file written directly. *)
Theorem C90_signal_refuted_direct : ~ C90_signal_claim false true true true.
Proof.
  intros H.
  specialize (H (ex_env TmpErr KRename) ex_fs (Rel (Base 1)) true true ex_cs None [] _ _ 2 ex_key
    (ex_fresh _ _) eq_refl ltac:(discriminate) ltac:(intros _ n ok l; discriminate) ltac:(discriminate) ltac:(discriminate)).
  destruct H as [_ H]. specialize (H (ex_not_tmp _ _)).
  destruct H as [[H | [_ [H _]]] | [_ H]]; vm_compute in H; discriminate H.
Qed.
Print Assumptions C90_signal_refuted_direct.
Theorem C90_signal_refuted_copy : ~ C90_signal_claim true false true true.
Proof.
  intros H.
  specialize (H (ex_env TmpOk (KCopy 1 true false)) ex_fs (Rel (Base 1)) true true ex_cs None [] _ _ 6 ex_key
    (ex_fresh _ _) eq_refl (fun _ => ex_used _ _) ltac:(discriminate) ltac:(discriminate) ltac:(discriminate)).
  destruct H as [_ H]. specialize (H (ex_not_tmp _ _)).
  destruct H as [[H | [_ [H _]]] | [H _]]; vm_compute in H; discriminate H.
Qed.
Print Assumptions C90_signal_refuted_copy.
(** A failed rename leaves a temporary file which is not registered any more. *)
Theorem C90_signal_refuted_fail : ~ C90_signal_claim true true false true.
Proof.
  intros H.
  specialize (H (ex_env TmpOk (KFail false)) ex_fs (Rel (Base 1)) true true ex_cs None [] _ _ 5 ex_tmp
    (ex_fresh _ _) eq_refl (fun _ => ex_used _ _) ltac:(intros _ n ok l; discriminate) ltac:(discriminate) ltac:(discriminate)).
  destruct H as [H _]. specialize (H eq_refl). vm_compute in H. discriminate H.
Qed.
Print Assumptions C90_signal_refuted_fail.
Theorem C90_signal_refuted_moment : ~ C90_signal_claim true true true false.
Proof.
  intros H.
  specialize (H (ex_env TmpOk KRename) ex_fs (Rel (Base 1)) true true ex_cs None [] _ _ 1 ex_tmp
    (ex_fresh _ _) eq_refl (fun _ => ex_used _ _) ltac:(intros _ n ok l; discriminate) ltac:(discriminate) ltac:(discriminate)).
  destruct H as [H _]. specialize (H eq_refl). vm_compute in H. discriminate H.
Qed.
Print Assumptions C90_signal_refuted_moment.

(** The standard output. *)
Theorem C90_stdout : C90_stdout_claim.
Proof. exact stdout_true. Qed.
Print Assumptions C90_stdout.
Example C90_stdout_example :
  let x := session (ex_env TmpOk KRename) ex_fs Dash true true true ex_cs [(Some 3, true)] in
  snd x = Done /\ out_of (final ex_fs x) = [1; 2; 3] /\ node_of (final ex_fs x) ex_key = Some (Reg [7]).
Proof. vm_compute. repeat split. Qed.

(** Assertions. *)
Theorem C90_assert : C90_assert_claim.
Proof. exact assert_true. Qed.
Print Assumptions C90_assert.
Example C90_assert_example :
  snd (session (ex_env TmpOk KRename) ex_fs (Rel (Base 1)) true true true ex_cs [(None, false)]) = Done
  /\ snd (session (ex_env TmpOk KRename) ex_fs (Rel (Base 1)) true true true ex_cs [(None, false); (None, false)]) = AssertFail
  /\ snd (session (ex_env TmpOk KRename) ex_fs (Rel (Base 1)) true false true ex_cs [(None, false)]) = AssertFail.
Proof. vm_compute. repeat split. Qed.

(** A session without errors of LLVM succeeds. *)
Theorem C90_works : C90_works_claim.
Proof. exact works_true. Qed.
Print Assumptions C90_works.

(** Special files. *)
Theorem C90_special : C90_special_claim.
Proof. exact special_true. Qed.
Print Assumptions C90_special.
Definition ex_null : fsys := FS (fun k => if key_eq_dec k ex_key then Some Special else None) [] (fun _ => false).
Example C90_special_example :
  let x := session (ex_env TmpOk KRename) ex_null (Rel (Base 1)) true true true ex_cs [(None, true)] in
  snd x = Done /\ length (fst x) = 4 /\ node_of (final ex_null x) ex_key = Some Special.
Proof. vm_compute. repeat split. Qed.
