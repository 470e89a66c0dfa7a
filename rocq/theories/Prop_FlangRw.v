(** C100: edits of Fortran sources. *)
From Coq Require Import ZArith List Bool Lia.
From Verif Require Import RewriterModel FlangRwModel FlangRwSpec FlangRwProof.
Import ListNotations.
Local Open Scope Z_scope.

Theorem C100_created : C100_created_claim.
Proof. exact created. Qed.
Print Assumptions C100_created.
Example C100_created_example : valid exContent exBase 0%nat exCooked /\ construct exContent 0%nat exCooked = Some exRw
  /\ text exRw 0%nat = Some [1; 2; 3; 4; 5]%nat /\ text exRw 1%nat = Some [8; 9]%nat.
Proof. exact (conj ex_valid (conj eq_refl (conj eq_refl eq_refl))). Qed.

(** What is missing: places outside of files which are before some file. *)
Theorem C100_class_partial : C100_class_claim true.
Proof. exact class_partial. Qed.
Print Assumptions C100_class_partial.
Example C100_class_example : reached exContent 0%nat exCooked [] exRw /\ covered exCooked 0%nat 3 /\ covered exCooked 1%nat 10
  /\ isInclude exRw 3 = false /\ isInclude exRw 10 = true /\ isMacroOrCompiler exRw 10 = false /\ isMacroOrCompiler exRw 12 = true.
Proof.
  split; [exact ex_reached|]. split; [apply ex_covered; lia|]. split; [apply ex_covered; lia|].
  exact (conj eq_refl (conj eq_refl (conj eq_refl eq_refl))).
Qed.

Theorem C100_class_refuted : ~ C100_class_claim false.
Proof. exact class_refuted. Qed.
Print Assumptions C100_class_refuted.

Theorem C100_scope : C100_scope_claim.
Proof. exact scope. Qed.
Print Assumptions C100_scope.
Example C100_scope_example : exists r', reached exContent 0%nat exCooked [] exRw
  /\ step exContent exRw (Rep 10 2 [7]%nat) = Some (false, r') /\ text r' 1%nat = Some [7]%nat /\ text r' 0%nat = text exRw 0%nat.
Proof. eexists. split; [exact ex_reached|]. split; [reflexivity|]. split; reflexivity. Qed.

(** What is missing: insertions. *)
Theorem C100_reported_partial : C100_reported_claim true.
Proof. exact reported_partial. Qed.
Print Assumptions C100_reported_partial.
Example C100_reported_example : reached exContent 0%nat exCooked [] exRw
  /\ step exContent exRw (Rep 5 6 [7]%nat) = Some (true, exRw) /\ (exists r', step exContent exRw (Rep 1 2 [7]%nat) = Some (false, r')).
Proof. split; [exact ex_reached|]. split; [reflexivity|]. eexists. reflexivity. Qed.

Theorem C100_reported_refuted : ~ C100_reported_claim false.
Proof. exact reported_refuted. Qed.
Print Assumptions C100_reported_refuted.

(** What is missing: ranges which begin or end at a character which is not in a cooked source; only the first edit is considered (for next edits see C50). *)
Theorem C100_replace_partial : C100_replace_claim true.
Proof. exact replace_partial. Qed.
Print Assumptions C100_replace_partial.
Example C100_replace_example : exists r', valid exContent exBase 0%nat exCooked /\ construct exContent 0%nat exCooked = Some exRw
  /\ atFile exCooked 0%nat 2 /\ atFile exCooked 0%nat 5 /\ replace exRw 2 4 [7; 7]%nat = Some (false, r') /\ text r' 0%nat = Some [1; 7; 7]%nat.
Proof.
  eexists. split; [exact ex_valid|]. split; [reflexivity|]. split; [exists 1; cbn; tauto|]. split; [exists 4; cbn; tauto|].
  split; reflexivity.
Qed.

Theorem C100_replace_refuted : ~ C100_replace_claim false.
Proof. exact replace_refuted. Qed.
Print Assumptions C100_replace_refuted.

(** What is missing: characters which are not in a cooked source; only the first edit is considered. *)
Theorem C100_insert_partial : C100_insert_claim true.
Proof. exact insert_partial. Qed.
Print Assumptions C100_insert_partial.
Example C100_insert_example : exists b r', valid exContent exBase 0%nat exCooked /\ construct exContent 0%nat exCooked = Some exRw
  /\ atFile exCooked 0%nat 5 /\ insert exRw 5 [7]%nat false = Some (b, r') /\ text r' 0%nat = Some [1; 2; 3; 4; 7; 5]%nat.
Proof.
  eexists _, _. split; [exact ex_valid|]. split; [reflexivity|]. split; [exists 4; cbn; tauto|]. split; reflexivity.
Qed.

Theorem C100_insert_refuted : ~ C100_insert_claim false.
Proof. exact insert_refuted. Qed.
Print Assumptions C100_insert_refuted.

(** What is missing: repeated questions. *)
Theorem C100_modified_partial : C100_modified_claim true.
Proof. exact modified_partial. Qed.
Print Assumptions C100_modified_partial.
Example C100_modified_example : exists r, reached exContent 0%nat exCooked [Rep 2 1 [7]%nat] r /\ ~ In Query [Rep 2 1 [7]%nat]
  /\ changed exContent r.
Proof.
  eexists. split; [exists exRw; split; reflexivity|]. split; [intros [X | []]; discriminate|].
  exists 0%nat, [1; 7; 3; 4; 5]%nat. split; [reflexivity|discriminate].
Qed.

Theorem C100_modified_refuted : ~ C100_modified_claim false.
Proof. exact modified_refuted. Qed.
Print Assumptions C100_modified_refuted.

Theorem C100_noticed : C100_noticed_claim.
Proof. exact noticed. Qed.
Print Assumptions C100_noticed.
Example C100_noticed_example : exists r, reached exContent 0%nat exCooked [Rep 2 1 [7]%nat; Query] r /\ changed exContent r.
Proof.
  eexists. split; [exists exRw; split; reflexivity|].
  exists 0%nat, [1; 7; 3; 4; 5]%nat. split; [reflexivity|discriminate].
Qed.
