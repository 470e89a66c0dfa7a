(** C80: calls which prevent data dependence analysis are expanded. *)
From Coq Require Import PeanoNat Bool List Lia Permutation.
From Verif Require Import DepInlineModel DepInlineSpec DepInlineProof.
Import ListNotations.

(** main (0) contains a loop, its call 10 of g (1) is a cause of a flow dependence; g calls h (2),
    h calls itself and a declared function (3); u (4) calls h and it is not executed. *)
Definition exTrait (ls : list (option nat)) (cs : list (option call)) : trait := Trait None (Some ls) None cs.
Definition exLoop (t : trait) : loop := Loop true true (Some [(true, [t]); (false, [])]).
Definition exM : list func :=
  [Func 0 false [Call 10 (Some 5) (Some 1); Call 11 (Some 6) (Some 2); Call 16 (Some 7) None]
     [exLoop (exTrait [None; Some 5] [Some (Call 16 (Some 7) None)])];
   Func 1 false [Call 12 None (Some 2)] [];
   Func 2 false [Call 13 (Some 5) (Some 2); Call 14 None (Some 3)] [];
   Func 3 true [] [];
   Func 4 false [Call 15 (Some 8) (Some 2)] []].
Definition noOrder (l : list nat) := l.
Lemma noOrder_ok : someOrder noOrder.
Proof. intro l. apply Permutation_refl. Qed.
Ltac inCases H := cbn in H; repeat (destruct H as [H|H]); try discriminate; try contradiction;
  inversion H; subst; clear H.
Lemma exM_ok : wellFormed exM.
Proof.
  split; [cbn; repeat constructor; cbn; intuition discriminate|]. split.
  - intros f g c c' F G C C' E. inCases F; inCases G; inCases C; inCases C'; cbn in E; try discriminate; auto.
  - intros f t c F (_ & l & ds & ts & L & _ & _ & D & A & T) C.
    inCases F; inCases L; cbn in D; injection D as <-; inCases A; inCases T; inCases C.
    cbn. auto.
Qed.

Theorem C80_finish : C80_finish_claim.
Proof. exact finish_ok. Qed.
Print Assumptions C80_finish.
Example C80_finish_case : someOrder noOrder /\ wellFormed exM /\
  runOnModule 5 noOrder exM [] = Some ([12; 14; 13; 16; 10], true).
Proof. split; [exact noOrder_ok|]. split; [exact exM_ok|]. vm_compute. reflexivity. Qed.

Theorem C80_sound : C80_sound_claim.
Proof. exact sound_ok. Qed.
Print Assumptions C80_sound.
Example C80_sound_case : runOnModule 5 noOrder exM [15] = Some ([12; 14; 13; 16; 10; 15], true) /\
  runOnModule 5 noOrder exM [12; 14; 13; 16; 10] = Some ([12; 14; 13; 16; 10], false).
Proof. vm_compute. split; reflexivity. Qed.

Theorem C80_complete_partial : C80_complete_claim true true.
Proof. exact complete_ok. Qed.
Print Assumptions C80_complete_partial.
Example C80_complete_case :
  (forall f c c' l, In f exM -> In c (fCalls f) -> In c' (fCalls f) -> cLoc c = Some l -> cLoc c' = Some l -> c = c') /\
  needed exM (Call 14 None (Some 3)) /\ needed exM (Call 10 (Some 5) (Some 1)).
Proof.
  assert (P : prevents (hd (Func 0 false [] []) exM) (Call 10 (Some 5) (Some 1))).
  { exists (exTrait [None; Some 5] [Some (Call 16 (Some 7) None)]). split.
    - split; [reflexivity|]. do 3 eexists. repeat split; [now left|reflexivity|reflexivity|reflexivity|now left|now left].
    - left. split; [now left|]. exists 5. split; [reflexivity|]. exists [None; Some 5]. cbn. auto. }
  split; [|split].
  - intros f c c' l F C C' E E'. inCases F; inCases C; inCases C'; cbn in E, E'; congruence.
  - right. exists (hd (Func 0 false [] []) exM), (Call 10 (Some 5) (Some 1)), 1,
      (Func 2 false [Call 13 (Some 5) (Some 2); Call 14 None (Some 3)] []).
    split; [now left|]. split; [exact P|]. split; [reflexivity|]. split; [|cbn; auto 10].
    apply (reach_call exM 1 (Func 1 false [Call 12 None (Some 2)] []) (Call 12 None (Some 2)));
      [constructor|cbn; auto|now left|reflexivity].
  - left. exists (hd (Func 0 false [] []) exM). split; [now left|exact P].
Qed.
(** Two calls with the same location (an expansion of a macro): the second one is not marked. *)
Definition exSame : list func :=
  [Func 0 false [Call 10 (Some 5) (Some 1); Call 11 (Some 5) (Some 2)] [exLoop (exTrait [Some 5] [])];
   Func 1 false [] []; Func 2 false [Call 12 None None] []].
Theorem C80_complete_refuted_locs : ~ C80_complete_claim false true.
Proof.
  intro H.
  assert (W : wellFormed exSame).
  { split; [cbn; repeat constructor; cbn; intuition discriminate|]. split.
    - intros f g c c' F G C C' E. inCases F; inCases G; inCases C; inCases C'; cbn in E; try discriminate; auto.
    - intros f t c F (_ & l & ds & ts & L & _ & _ & D & A & T) C.
      inCases F; inCases L; cbn in D; injection D as <-; inCases A; inCases T; inCases C. }
  assert (N : needed exSame (Call 11 (Some 5) (Some 2))).
  { left. exists (hd (Func 0 false [] []) exSame). split; [now left|]. exists (exTrait [Some 5] []). split.
    - split; [reflexivity|]. do 3 eexists. repeat split; [now left|reflexivity|reflexivity|reflexivity|now left|now left].
    - left. split; [cbn; auto|]. exists 5. split; [reflexivity|]. exists [Some 5]. cbn. auto. }
  assert (Q : In 11 [10]).
  { exact (H 5 noOrder exSame [] [10] true noOrder_ok W (fun E => match Bool.diff_false_true E with end)
      (fun _ => eq_refl) eq_refl _ N). }
  destruct Q as [Q|[]]. discriminate.
Qed.
Print Assumptions C80_complete_refuted_locs.
(** A call is already marked: calls in its callee are not. *)
Theorem C80_complete_refuted_once : ~ C80_complete_claim true false.
Proof.
  intro H. destruct C80_complete_case as (L & N & _).
  assert (Q : In 14 [16; 10]).
  { exact (H 5 noOrder exM [10] [16; 10] true noOrder_ok exM_ok (fun _ => L)
      (fun E => match Bool.diff_false_true E with end) eq_refl _ N). }
  destruct Q as [Q|[Q|[]]]; discriminate.
Qed.
Print Assumptions C80_complete_refuted_once.

Theorem C80_expand : C80_expand_claim.
Proof. exact expand_all_ok. Qed.
Print Assumptions C80_expand.
(** A call of 0 is expanded in 1, the first call of 1 is expanded in 2. *)
Definition exBodies : list (list elem) :=
  [[EAcc; EAcc; EAcc]; [EAcc; ECall 0 true]; [ECall 1 true; ECall 1 false; EAcc; EAcc; ECall 0 true]].
Example C80_expand_case : bottomUp exBodies /\
  inlineAll 8 exBodies = [[EAcc; EAcc; EAcc]; [EAcc; EAcc; EAcc; EAcc];
    [EAcc; EAcc; EAcc; EAcc; ECall 1 false; EAcc; EAcc; ECall 0 true]].
Proof.
  split; [|reflexivity]. intros f b g ok H B.
  destruct f as [|[|[|f]]]; cbn in H; try (destruct f; discriminate); injection H as <-; inCases B; lia.
Qed.

Theorem C80_size_partial : C80_size_claim true true.
Proof. exact size_ok. Qed.
Print Assumptions C80_size_partial.
Example C80_size_case : bottomUp [[EAcc; EAcc; EAcc]; [EAcc; ECall 0 true]] /\
  length (filter isCall [EAcc; ECall 0 true]) <= 1 /\
  inlineAll 6 [[EAcc; EAcc; EAcc]; [EAcc; ECall 0 true]] = [[EAcc; EAcc; EAcc]; [EAcc; EAcc; EAcc; EAcc]].
Proof.
  split; [|split; [cbn; lia|reflexivity]]. intros f b g ok H B.
  destruct f as [|[|f]]; cbn in H; try (destruct f; discriminate); injection H as <-; inCases B; lia.
Qed.
(** The cost of a function is not updated when a call is expanded. *)
Theorem C80_size_refuted_one : ~ C80_size_claim false true.
Proof.
  intro H.
  destruct (H 8 [[EAcc; EAcc; EAcc; EAcc]; [ECall 0 true; ECall 0 true; ECall 0 true]] 1
    [ECall 0 true; ECall 0 true; ECall 0 true]) as (b' & E & Q).
  - intros f b g ok F B.
    destruct f as [|[|f]]; cbn in F; try (destruct f; discriminate); injection F as <-; inCases B; lia.
  - reflexivity.
  - discriminate.
  - intros _ g ok c B C e E. inCases B; cbn in C; injection C as <-; inCases E; reflexivity.
  - vm_compute in E. injection E as <-. destruct Q as [Q|Q]; [discriminate|cbn in Q; lia].
Qed.
Print Assumptions C80_size_refuted_one.
(** The cost of a callee does not include accesses which have been expanded in it. *)
Theorem C80_size_refuted_leaf : ~ C80_size_claim true false.
Proof.
  intro H.
  destruct (H 8 [[EAcc; EAcc; EAcc; EAcc]; [ECall 0 true; EAcc; EAcc]; [ECall 1 true; EAcc; EAcc; EAcc]] 2
    [ECall 1 true; EAcc; EAcc; EAcc]) as (b' & E & Q).
  - intros f b g ok F B.
    destruct f as [|[|[|f]]]; cbn in F; try (destruct f; discriminate); injection F as <-; inCases B; lia.
  - reflexivity.
  - cbn. lia.
  - discriminate.
  - vm_compute in E. injection E as <-. destruct Q as [Q|Q]; [discriminate|cbn in Q; lia].
Qed.
Print Assumptions C80_size_refuted_leaf.
