(** C87: pairs of loops of a source code and loops of LLVM IR. *)
From Coq Require Import PeanoNat Bool List.
From Verif Require Import MatchModel LoopMatchModel LoopMatchSpec LoopMatchProof.
Import ListNotations.

(* two copies of a text with a while loop and a for loop, then a loop without initialization *)
Definition program : list stmt :=
  [Stmt 0 KLoop 1; Stmt 1 KPlain 2; Stmt 2 (KFor (Some 4)) 3; Stmt 3 KPlain 4; Stmt 4 KPlain 5;
   Stmt 5 KLoop 1; Stmt 6 KPlain 2; Stmt 7 (KFor (Some 4)) 3; Stmt 8 KPlain 4; Stmt 9 KPlain 5; Stmt 10 (KFor None) 6].
Definition loops : list irloop :=
  [Loop 20 (Some 1) (Some 1); Loop 21 (Some 4) (Some 3); Loop 22 (Some 1) (Some 1); Loop 23 (Some 4) (Some 3); Loop 24 (Some 6) (Some 6)].
Definition programOrigin (x : nat) : nat := match x with 20 => 0 | 21 => 2 | 22 => 5 | 23 => 7 | _ => 10 end.

(** The full statement is C87_match_claim true false false together with C87_match_claim false false false. *)
Theorem C87_match_partial : C87_match_claim false true true.
Proof. exact match_true. Qed.
Print Assumptions C87_match_partial.
Ltac members H := repeat (destruct H as [<-|H]); [..|destruct H].
Example C87_match_case : NoDup (map tId program) /\ NoDup (map lId loops) /\ textOk program /\
  map (fun l => programOrigin (lId l)) loops = map tId (filter isLoop program) /\
  (forall l t, In l loops -> In t program -> tId t = programOrigin (lId l) -> lStart l = Some (key t) /\ lHeader l = Some (tBegin t)) /\
  exists s, runLoops false program loops = Done s /\
    mMatch s = [(0, Some 20); (2, Some 21); (5, Some 22); (7, Some 23); (10, Some 24)].
Proof.
  split; [nodup|]. split; [nodup|]. split.
  - unfold textOk. split4.
    + intros t u It Iu A B Q. unfold program in It, Iu. members It; try discriminate A; members Iu; try discriminate B;
        cbn in Q |- *; split; try reflexivity; destruct Q as [Q|[Q|Q]]; discriminate Q.
    + intros t u It Iu A B. unfold program in It, Iu. members It; try discriminate A; members Iu; try discriminate B; discriminate.
    + intros a u b t E Lu It Lt Q.
      assert (K : key t = 4).
      { assert (Iu : In u program) by (rewrite E; apply in_app_iff; right; left; reflexivity).
        unfold program in It, Iu. members It; try discriminate Lt; try reflexivity; members Iu; try discriminate Lu; discriminate Q. }
      exists (Stmt 2 (KFor (Some 4)) 3). split; [|split; [reflexivity|symmetry; exact K]]. rewrite K in Q.
      destruct a as [|v0 [|v1 [|v2 a]]]; [| | |injection E as _ _ <- _; right; right; left; reflexivity]; injection E as; subst; try discriminate Q; discriminate Lu.
    + intros t i It K. unfold program in It. members It; try discriminate K; injection K as <-; discriminate.
  - split; [reflexivity|]. split.
    + intros l t Il It E. unfold loops in Il. unfold program in It. members Il; members It; try discriminate E; split; reflexivity.
    + eexists. split; [vm_compute; reflexivity|reflexivity].
Qed.
(** With assertions enabled a use of an empty queue terminates the analyzer after any for loop with initialization. *)
Theorem C87_match_refuted_asserts : ~ C87_match_claim true true true.
Proof. exact match_refuted_asserts. Qed.
Print Assumptions C87_match_refuted_asserts.
(** A loop of a text which is included several times is removed from IR. *)
Theorem C87_match_refuted_removed : ~ C87_match_claim false false true.
Proof. exact match_refuted_complete. Qed.
Print Assumptions C87_match_refuted_removed.
(** A terminator of a header has no location. *)
Theorem C87_match_refuted_header : ~ C87_match_claim false true false.
Proof. exact match_refuted_header. Qed.
Print Assumptions C87_match_refuted_header.

(** The full statement is C87_implicit_claim false. *)
Theorem C87_implicit_partial : C87_implicit_claim true.
Proof. exact implicit_true. Qed.
Print Assumptions C87_implicit_partial.
(* l: x; if (c) goto l; m: y; if (d) goto m; *)
Definition gotos : list stmt :=
  [Stmt 0 KLabel 1; Stmt 1 KPlain 2; Stmt 2 KPlain 3; Stmt 3 KLabel 4; Stmt 4 KPlain 5; Stmt 5 KPlain 6].
Definition gotoLoops : list irloop := [Loop 10 (Some 2) (Some 3); Loop 11 (Some 5) (Some 6)].
Definition gotoHead (x : nat) : nat := match x with 10 => 0 | _ => 3 end.
Example C87_implicit_case : NoDup (map tId gotos) /\
  (forall l h a u b, In l gotoLoops -> lHeader l = Some h -> gotos = a ++ u :: b -> tKind u = KPlain -> tBegin u = h ->
     exists a1 lab a2, a = a1 ++ lab :: a2 /\ tKind lab = KLabel /\ tId lab = gotoHead (lId l) /\ forall v, In v a2 -> tKind v <> KLabel) /\
  exists s, runLoops false gotos gotoLoops = Done s /\ mMatch s = [(0, Some 10); (3, Some 11)].
Proof.
  split; [nodup|]. split.
  - intros l h a u b Il Q E Ku Eu.
    destruct a as [|v0 [|v1 [|v2 [|v3 [|v4 [|v5 a]]]]]]; cbn in E; injection E as; subst; try discriminate Ku;
      try (unfold gotoLoops in Il; members Il; discriminate Q).
    + unfold gotoLoops in Il; members Il; [|discriminate Q]. exists [], (Stmt 0 KLabel 1), [Stmt 1 KPlain 2]. repeat (split; [reflexivity|]).
      intros v [<-|[]]; discriminate.
    + unfold gotoLoops in Il; members Il; [discriminate Q|]. exists [Stmt 0 KLabel 1; Stmt 1 KPlain 2; Stmt 2 KPlain 3], (Stmt 3 KLabel 4), [Stmt 4 KPlain 5].
      repeat (split; [reflexivity|]). intros v [<-|[]]; discriminate.
    + destruct a; discriminate.
  - eexists. split; [vm_compute; reflexivity|reflexivity].
Qed.
(** A header contains two labels. *)
Theorem C87_implicit_refuted_labels : ~ C87_implicit_claim false.
Proof. exact implicit_refuted. Qed.
Print Assumptions C87_implicit_refuted_labels.

Theorem C87_once : C87_once_claim.
Proof. exact once_true. Qed.
Print Assumptions C87_once.
Example C87_once_case : exists s, runLoops true gotos gotoLoops = Done s /\ mMatch s <> [].
Proof. eexists. split; [vm_compute; reflexivity|discriminate]. Qed.

(** The full statement is C87_reported_claim false. *)
Theorem C87_reported_partial : C87_reported_claim true.
Proof. exact reported_true. Qed.
Print Assumptions C87_reported_partial.
Example C87_reported_case : exists s, runLoops true [Stmt 0 KLoop 1; Stmt 1 KLoop 2] [Loop 5 (Some 2) (Some 2)] = Done s /\
  mMatch s = [(1, Some 5)] /\ mUnmatched s = [0].
Proof. eexists. split; [vm_compute; reflexivity|split; reflexivity]. Qed.
(** The third copy of a loop is lost if there is one loop in IR. *)
Theorem C87_reported_refuted_copies : ~ C87_reported_claim false.
Proof. exact reported_refuted. Qed.
Print Assumptions C87_reported_refuted_copies.
