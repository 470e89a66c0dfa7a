(** C96: levels of loops in an answer of a server. *)
From Coq Require Import PeanoNat Bool List Permutation Lia.
From Verif Require Import LoopLevelModel LoopLevelSpec LoopLevelProof.
Import ListNotations.

(** for (0) { for (1) for (2) x; while (3) y; } do (4) ...; *)
Definition exP : program := Program [Loop 3 6 7; Loop 0 0 8; Loop 4 9 10; Loop 2 3 5; Loop 1 2 5] oLast.
Lemma exP_wf : wellFormed exP.
Proof.
  split; [ | split].
  - repeat (constructor; [cbn; intuition discriminate | ]). constructor.
  - intros a Ha. cbn in Ha. repeat (destruct Ha as [<- | Ha]; [cbn; lia | ]). destruct Ha.
  - intros a b Ha Hb N. cbn in Ha, Hb. unfold apart, inside.
    repeat (destruct Ha as [<- | Ha]; [repeat (destruct Hb as [<- | Hb]; [cbn; (contradiction || lia) | ]); destruct Hb | ]). destruct Ha.
Qed.
Lemma exP_separate : separate exP plain.
Proof. intros t t' _ _ N _ E. cbn in E. injection E as E. contradiction. Qed.
Lemma exP_answer : answer plain (pLoops exP)
  [(Loop 0 0 8, 1); (Loop 1 2 5, 2); (Loop 2 3 5, 3); (Loop 3 6 7, 2); (Loop 4 9 10, 1)].
Proof.
  exists [Loop 0 0 8; Loop 1 2 5; Loop 2 3 5; Loop 3 6 7; Loop 4 9 10]. split; [ | reflexivity]. split.
  - apply NoDup_Permutation; [exact (proj1 exP_wf) | repeat (constructor; [cbn; intuition discriminate | ]); constructor | ].
    intros x. cbn. tauto.
  - repeat (constructor; [intros q Hq; cbn in Hq; repeat (destruct Hq as [<- | Hq]; [reflexivity | ]); destruct Hq | ]). constructor.
Qed.

(** What is missing: implicit loops, macros, included files. *)
Theorem C96_level_partial : C96_level_claim true true true.
Proof. exact level_true. Qed.
Print Assumptions C96_level_partial.
Example C96_level_example :
  wellFormed exP /\ printed 0 plain /\ explicit exP /\ separate exP plain /\ single exP 0 plain
  /\ map (depth exP) (pLoops exP) = [1; 0; 0; 2; 1]
  /\ exists a, answer plain (pLoops exP) a /\ map snd a = [1; 2; 3; 2; 1].
Proof.
  split; [exact exP_wf | ]. split; [exact plain_printed | ]. split; [intros a _; reflexivity | ]. split; [exact exP_separate | ].
  split; [intros t _; reflexivity | ]. split; [reflexivity | ]. eexists. split; [exact exP_answer | reflexivity].
Qed.
Theorem C96_level_refuted_implicit : ~ C96_level_claim false true true.
Proof. exact level_implicit. Qed.
Print Assumptions C96_level_refuted_implicit.
Theorem C96_level_refuted_macro : ~ C96_level_claim true false true.
Proof. exact level_macro. Qed.
Print Assumptions C96_level_refuted_macro.
Theorem C96_level_refuted_file : ~ C96_level_claim true true false.
Proof. exact level_file. Qed.
Print Assumptions C96_level_refuted_file.

(** What is missing: macros, included files. *)
Theorem C96_order_partial : C96_order_claim true true.
Proof. exact order_true. Qed.
Print Assumptions C96_order_partial.
Theorem C96_order_refuted_macro : ~ C96_order_claim false true.
Proof. exact order_macro. Qed.
Print Assumptions C96_order_refuted_macro.
Theorem C96_order_refuted_file : ~ C96_order_claim true false.
Proof. exact order_file. Qed.
Print Assumptions C96_order_refuted_file.

Theorem C96_all : C96_all_claim.
Proof. exact all_true. Qed.
Print Assumptions C96_all.
Theorem C96_forest : C96_forest_claim.
Proof. exact forest_true. Qed.
Print Assumptions C96_forest.
Theorem C96_total : C96_total_claim.
Proof. exact total_true. Qed.
Print Assumptions C96_total.
(** Hypotheses are also met if locations of loops are equal or files are different. *)
Example C96_forest_example :
  answer macroText (pLoops macroP) [(Loop 0 0 1, 1); (Loop 1 2 3, 2)]
  /\ answer fileText (pLoops fileP) [(Loop 1 1 2, 1); (Loop 0 0 3, 1)].
Proof.
  split; [ | exact file_answer]. exists (pLoops macroP). split; [ | reflexivity]. split; [apply Permutation_refl | ].
  constructor; [intros q [<- | []]; reflexivity | ]. constructor; [intros q [] | constructor].
Qed.

(** What is missing: loops at the same location. *)
Theorem C96_unique_partial : C96_unique_claim true.
Proof. exact unique_true. Qed.
Print Assumptions C96_unique_partial.
Example C96_unique_example :
  (forall p q, In p (pLoops exP) -> In q (pLoops exP) -> p <> q -> startLoc plain p <> startLoc plain q)
  /\ Permutation (pLoops exP) (rev (pLoops exP)) /\ pLoops exP <> rev (pLoops exP).
Proof.
  split; [ | split; [apply Permutation_rev | discriminate]].
  intros p q Hp Hq N E. apply N. apply (first_inj exP p q exP_wf Hp Hq). unfold startLoc, plain, getLocation in E. cbn in E.
  injection E as E _. exact E.
Qed.
Theorem C96_unique_refuted_macro : ~ C96_unique_claim false.
Proof. exact unique_macro. Qed.
Print Assumptions C96_unique_refuted_macro.
