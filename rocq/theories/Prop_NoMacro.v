(** C97: a search for macros. *)
From Coq Require Import PeanoNat Bool List Lia.
From Verif Require Import NoMacroModel NoMacroSpec NoMacroProof.
Import ListNotations.

(** #include <stdio.h>, #include "f.h", int x;, #define N 5, #ifdef N, #define M(x) x, #endif *)
Definition exFile : list (list tok) :=
  [[THash; TId nInclude; TLess; TId 20; TOther; TId 21; TGreater]; [THash; TId nInclude; TLit]; [];
   [TId 22; TId 23; TOther]; [THash; TId nDefine; TId 10; TLit]; [THash; TId nIfdef; TId 10];
   [THash; TId nDefine; TId 11; TOther; TId 23; TOther; TId 23]; [THash; TId 24]].
Lemma exFile_null : noNull exFile.
Proof. intros H. cbn in H. repeat (destruct H as [H | H]; [discriminate H | ]). destruct H. Qed.
Lemma exFile_include : goodInclude exFile.
Proof.
  intros r H. cbn in H. destruct H as [H | [H | H]].
  - injection H as <-. right. exists [TId 20; TOther; TId 21], []. reflexivity.
  - injection H as <-. left. exists []. reflexivity.
  - repeat (destruct H as [H | H]; [discriminate H | ]). destruct H.
Qed.
Lemma exFile_define : goodDefine exFile.
Proof.
  intros r H. cbn in H. repeat (destruct H as [H | H]; [try discriminate H; injection H as <-; eexists; eexists; reflexivity | ]). destruct H.
Qed.
Lemma exFile_collected : collectFile (fileTokens exFile) = Ok [11; 10] [23; 23; 10; 23; 22].
Proof. reflexivity. Qed.
Lemma exFile_defined : defined exFile 11.
Proof. eexists. split; [ | eexists; reflexivity]. cbn. do 6 right. left. reflexivity. Qed.

(** What is missing: null directives and unfinished names of included files. *)
Theorem C97_collect_partial : C97_collect_claim true true.
Proof. exact collect_true. Qed.
Print Assumptions C97_collect_partial.
Example C97_collect_example :
  noNull exFile /\ goodInclude exFile /\ collectFile (fileTokens exFile) = Ok [11; 10] [23; 23; 10; 23; 22] /\ defined exFile 11.
Proof. exact (conj exFile_null (conj exFile_include (conj exFile_collected exFile_defined))). Qed.

Theorem C97_collect_refuted_null : ~ C97_collect_claim false true.
Proof. exact collect_null. Qed.
Print Assumptions C97_collect_refuted_null.

Theorem C97_collect_refuted_include : ~ C97_collect_claim true false.
Proof. exact collect_include. Qed.
Print Assumptions C97_collect_refuted_include.

(** What is missing: null directives and #define directives without names. *)
Theorem C97_only_partial : C97_only_claim true true.
Proof. exact only_true. Qed.
Print Assumptions C97_only_partial.
Example C97_only_example : noNull exFile /\ goodDefine exFile /\ collectFile (fileTokens exFile) = Ok [11; 10] [23; 23; 10; 23; 22].
Proof. exact (conj exFile_null (conj exFile_define exFile_collected)). Qed.

Theorem C97_only_refuted_null : ~ C97_only_claim false true.
Proof. exact only_null. Qed.
Print Assumptions C97_only_refuted_null.

Theorem C97_only_refuted_define : ~ C97_only_claim true false.
Proof. exact only_define. Qed.
Print Assumptions C97_only_refuted_define.

(** What is missing: null directives, computed names of included files, #define directives without names. *)
Theorem C97_total_partial : C97_total_claim true true true.
Proof. exact total_true. Qed.
Print Assumptions C97_total_partial.
Example C97_total_example : noNull exFile /\ goodInclude exFile /\ goodDefine exFile.
Proof. exact (conj exFile_null (conj exFile_include exFile_define)). Qed.

Theorem C97_total_refuted_null : ~ C97_total_claim false true true.
Proof. exact total_null. Qed.
Print Assumptions C97_total_refuted_null.

Theorem C97_total_refuted_include : ~ C97_total_claim true false true.
Proof. exact total_include. Qed.
Print Assumptions C97_total_refuted_include.

Theorem C97_total_refuted_define : ~ C97_total_claim true true false.
Proof. exact total_define. Qed.
Print Assumptions C97_total_refuted_define.

(** #pragma, x, = y; *)
Definition exWorld : world :=
  World [exFile] (fun _ => False) (fun _ => false)
    [(0, (THash, true)); (1, (TId nPragma, false)); (2, (TId 30, false)); (3, (TId 22, true)); (4, (TOther, false)); (5, (TId 23, false))]
    [(3, false); (5, false)].
Lemma exWorld_valid : valid exWorld.
Proof.
  split; [intros; reflexivity | split]; [intros p t _ H; discriminate H | ].
  intros p b [H | [H | []]]; injection H as <- <-; reflexivity.
Qed.

(** What is missing: null directives, computed names of included files, macros which are not defined in visited files. *)
Theorem C97_search_partial : C97_search_claim true true true.
Proof. exact search_true. Qed.
Print Assumptions C97_search_partial.
Example C97_search_example :
  valid exWorld /\ noNull exFile /\ goodInclude exFile /\ (forall s, ~ wOutside exWorld s)
  /\ collectFiles (map fileTokens (wFiles exWorld)) = Ok [11; 10] [23; 23; 10; 23; 22]
  /\ accepted (forEachMacro [11; 10] (wLocs exWorld) true (wRange exWorld)) = true.
Proof.
  exact (conj exWorld_valid (conj exFile_null (conj exFile_include (conj (fun s H => H) (conj eq_refl eq_refl))))).
Qed.

Theorem C97_search_refuted_null : ~ C97_search_claim false true true.
Proof. exact search_null. Qed.
Print Assumptions C97_search_refuted_null.

Theorem C97_search_refuted_include : ~ C97_search_claim true false true.
Proof. exact search_include. Qed.
Print Assumptions C97_search_refuted_include.

Theorem C97_search_refuted_outside : ~ C97_search_claim true true false.
Proof. exact search_outside. Qed.
Print Assumptions C97_search_refuted_outside.

Theorem C97_once : C97_once_claim.
Proof. exact once_true. Qed.
Print Assumptions C97_once.
Example C97_once_example : checkLocs [(1, true); (2, false); (1, true); (3, true)] [] = ([1; 3], [3; 2; 1]).
Proof. reflexivity. Qed.

(** What is missing: null directives in a checked range. *)
Theorem C97_noassert_partial : C97_noassert_claim true.
Proof. exact noassert_true. Qed.
Print Assumptions C97_noassert_partial.
Example C97_noassert_example :
  (forall l h r, [(0, (THash, true)); (1, (TId nIfdef, false)); (2, (TId 10, false))] = l ++ h :: r -> isHash (snd h) = true ->
     exists p s b r', r = (p, (TId s, b)) :: r')
  /\ forEachMacro [] [] true [(0, (THash, true)); (1, (TId nIfdef, false)); (2, (TId 10, false))] = (Reports [0], true).
Proof.
  split; [ | reflexivity]. intros l h r E Hh. destruct l as [ | a [ | b [ | c l]]]; cbn in E.
  - injection E as _ <-. exists 1, nIfdef, false, [(2, (TId 10, false))]. reflexivity.
  - injection E as _ <- _. discriminate Hh.
  - injection E as _ _ <- _. discriminate Hh.
  - injection E as _ _ _ E. destruct l; discriminate E.
Qed.

Theorem C97_noassert_refuted_null : ~ C97_noassert_claim false.
Proof. exact noassert_null. Qed.
Print Assumptions C97_noassert_refuted_null.

(** { #pragma assert; #pragma; for { ... #pragma assert; x } y; z } *)
Definition exNode : node := Node 0 [Prag true; Prag false; Node 1 [Prag true; Node 2 []]; Node 3 []; Prag true; Node 4 []].

Theorem C97_assert : C97_assert_claim.
Proof. exact assert_true. Qed.
Print Assumptions C97_assert.
Example C97_assert_example : asserted exNode 2 [] /\ snd (traverse exNode false) = [1; 4].
Proof.
  split; [ | reflexivity]. exists 1, [], [], []. split; [ | constructor].
  apply (sub_child 0 _ (Node 1 [Prag true; Node 2 []])); [cbn; tauto | apply sub_self].
Qed.

(** What is missing: assertions at the end of a block. *)
Theorem C97_checked_partial : C97_checked_claim true.
Proof. exact checked_true. Qed.
Print Assumptions C97_checked_partial.
Example C97_checked_example : followed (Node 0 [Prag true; Prag false; Node 1 []]) /\ snd (traverse (Node 0 [Prag true; Prag false; Node 1 []]) false) = [1].
Proof.
  split; [ | reflexivity]. intros k l r H. destruct (sub_inv _ _ H) as [E | [i [cs [c [E [Hc Hs]]]]]].
  - destruct l as [ | a [ | b [ | c l]]]; try discriminate E.
    + injection E as _ <-. exists [Prag false], 1, [], []. split; [reflexivity | constructor; [exact Logic.I | constructor]].
    + injection E as _ _ _ _ E. destruct l; discriminate E.
  - injection E as <- <-. cbn in Hc. destruct Hc as [<- | [<- | [<- | []]]]; destruct (sub_inv _ _ Hs) as [E | [i [cs [c [E [Hc Hs2]]]]]]; try discriminate E.
    + injection E as _ E. destruct l; discriminate E.
    + injection E as <- <-. destruct Hc.
Qed.

Theorem C97_checked_refuted_end : ~ C97_checked_claim false.
Proof. exact checked_leak. Qed.
Print Assumptions C97_checked_refuted_end.
