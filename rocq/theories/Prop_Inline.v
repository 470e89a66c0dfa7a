(** C72: inline expansion does not change results of functions.

    [C72_results_partial] covers programs in which calls which may be expanded are not in right operands of
    comma operators and not in groups of declarators, and in which calls of void functions are whole
    statements.  Without each of these conditions the claim is refuted. *)
From Coq Require Import List Bool Arith ZArith Lia.
From Verif Require Import InlineModel InlineSpec InlineSem InlineStatic InlineProof.
Import ListNotations.

Theorem C72_results_partial : C72_claim (Conds true true true).
Proof. intros opf ext fn enabled N depth W. exact (C72_sim opf ext fn enabled N depth W). Qed.
Print Assumptions C72_results_partial.

(** ** Examples *)
Definition prog (main callee : func) (f : nat) : option func := match f with 0 => Some main | 1 => Some callee | _ => None end.
Definition opEx (o : nat) (a b : Z) : Z := (a + b)%Z.
Definition extEx (f : nat) (a b : Z) (g : globals) : Z * globals := (0%Z, g).
Definition call1 (a b : expr) : expr := ECall true 1 a b.
(* int f(int p, int q) { if (p) { x = p; return p + q; } return q; }
   int main(int a, int b) { int r = f(a, f(b, 3)); return r + x; } *)
Definition calleeEx : func :=
  Func 1 2 false [SIf (EVar 1) (SBlock [SExpr (EAssign 0 (EVar 1)); SReturn (Some (EBin false 0 (EVar 1) (EVar 2)))] None) (SBlock [] None); SReturn (Some (EVar 2))].
Definition mainEx : func :=
  Func 3 4 false [SDecl [(5, Some (call1 (EVar 3) (call1 (EVar 4) (EConst 3))))]; SReturn (Some (EBin false 0 (EVar 5) (EVar 0)))].
Example C72_example_wf : wfProg (Conds true true true) (prog mainEx calleeEx) (fun f => f =? 1) 6.
Proof. intros [|[|f]] F E; [injection E as <-; reflexivity|injection E as <-; reflexivity|discriminate]. Qed.
(** Both calls are expanded *)
Example C72_example_text : transform (prog mainEx calleeEx) (fun f => f =? 1) 5 6 0 =
  Some (Func 3 4 false
    [ SDecl [(6, None)];
      SBlock [SDecl [(8, Some (EVar 4))]; SDecl [(9, Some (EConst 3))];
        SIf (EVar 8) (SBlock [SExpr (EAssign 0 (EVar 8)); SBlock [SExpr (EAssign 6 (EBin false 0 (EVar 8) (EVar 9))); SGoto 7] None] None) (SBlock [] None);
        SExpr (EAssign 6 (EVar 9))] (Some 7);
      SDecl [(10, None)];
      SBlock [SDecl [(12, Some (EVar 3))]; SDecl [(13, Some (EVar 6))];
        SIf (EVar 12) (SBlock [SExpr (EAssign 0 (EVar 12)); SBlock [SExpr (EAssign 10 (EBin false 0 (EVar 12) (EVar 13))); SGoto 11] None] None) (SBlock [] None);
        SExpr (EAssign 10 (EVar 13))] (Some 11);
      SDecl [(5, Some (EVar 10))];
      SReturn (Some (EBin false 0 (EVar 5) (EVar 0)))]).
Proof. reflexivity. Qed.
Ltac one := first [apply StVar|apply StBin|apply StSeq|apply StCond|apply StAssign|apply StBin1; one|apply StBin2; one|apply StSeq1; one|apply StCond1; one|apply StAssign1; one|apply StCall1; one|apply StCall2; one].
Ltac ev := first [apply StepsNil|eapply StepsCons; [one|]; cbn; ev].
Ltac run := cbn;
  lazymatch goal with
  | |- exec _ _ _ [] _ _ _ _ _ => apply exec_nil
  | |- exec _ _ _ (SExpr _ :: _) _ _ _ _ _ => eapply exec_expr; [ev|run]
  | |- exec _ _ _ (SDecl [] :: _) _ _ _ _ _ => eapply exec_decl0; run
  | |- exec _ _ _ (SDecl ((_, None) :: _) :: _) _ _ _ _ _ => eapply (exec_decl _ _ _ _ _ _ _ _ _ 0%Z); [split; reflexivity|run]
  | |- exec _ _ _ (SDecl _ :: _) _ _ _ _ _ => eapply exec_decl; [cbn [evalO]; ev|run]
  | |- exec _ _ _ (SIf _ _ _ :: _) _ _ _ _ _ => eapply exec_if; [ev|run|run]
  | |- exec _ _ _ (SBlock _ _ :: _) _ _ _ _ _ => eapply exec_block; [run|run]
  | |- exec _ _ _ (SReturn _ :: _) _ _ _ _ _ => eapply exec_return; cbn [evalO]; ev
  | |- exec _ _ _ (SGoto _ :: _) _ _ _ _ _ => eapply exec_goto
  | |- _ /\ _ /\ _ => repeat split; reflexivity
  end.
Lemma call_intro opf ext fn f F a b g v g2 l2 : fn f = Some F -> exec opf ext fn (fBody F) g (frame F a b) (OReturn v) g2 l2 -> call opf ext fn f a b g v g2.
Proof. intros E (n & H). exists n. unfold callN. rewrite E. exists (OReturn v), l2. now split. Qed.
Definition zero : globals := fun _ => 0%Z.
Example C72_example_run : exists g2, call opEx extEx (transform (prog mainEx calleeEx) (fun f => f =? 1) 5 6) 0 1 2 zero 7%Z g2.
Proof. eexists. eapply call_intro; [reflexivity|]. run. Qed.
(** The original function has the same result *)
Example C72_example : exists g2, call opEx extEx (prog mainEx calleeEx) 0 1 2 zero 7%Z g2.
Proof.
  destruct C72_example_run as (g2 & E). exists g2. exact (proj1 (C72_results_partial opEx extEx (prog mainEx calleeEx) (fun f => f =? 1) 6 5 C72_example_wf) 0 1%Z 2%Z zero 7%Z g2 E).
Qed.

(** ** Calls in right operands of comma operators are executed before left operands *)
Ltac fin := repeat match goal with
  | E : exists _, _ |- _ => destruct E
  | E : _ /\ _ |- _ => destruct E
  | E : False |- _ => destruct E
  | E : execN _ _ _ (S _) _ _ _ _ _ _ |- _ => rewrite execN_S in E
  | E : execN _ _ _ ?n _ _ _ _ _ _ |- _ => is_var n; destruct n as [|n]; [destruct E|rewrite execN_S in E]
  | E : callN _ _ _ _ _ _ _ _ _ _ |- _ => unfold callN in E; cbn in E
  | E : eval _ _ _ _ _ _ _ _ |- _ => unfold eval in E
  | E : evalO _ _ _ _ _ _ _ _ |- _ => cbn [evalO] in E
  | E : step _ _ _ _ _ _ _ _ |- _ => inversion E; subst; clear E
  | E : steps _ _ _ _ _ _ _ _ |- _ => inversion E; subst; clear E
  end; subst.
(* int f(int p, int q) { return x; }  int main(int a, int b) { return (x = 1, f(0, 0)); } *)
Definition getEx : func := Func 1 2 false [SReturn (Some (EVar 0))].
Definition commaEx : func := Func 3 4 false [SReturn (Some (ESeq KComma (EAssign 0 (EConst 1)) (call1 (EConst 0) (EConst 0))))].
Theorem C72_comma_refuted : ~ C72_claim (Conds false true true).
Proof.
  intro C. specialize (C opEx extEx (prog commaEx getEx) (fun f => f =? 1) 5 1).
  assert (W : wfProg (Conds false true true) (prog commaEx getEx) (fun f => f =? 1) 5) by (intros [|[|f]] F E; [injection E as <-; reflexivity|injection E as <-; reflexivity|discriminate]).
  destruct (C W) as (C1 & _). specialize (C1 0 0%Z 0%Z zero 0%Z).
  assert (E : exists g2, call opEx extEx (transform (prog commaEx getEx) (fun f => f =? 1) 1 5) 0 0 0 zero 0%Z g2) by (eexists; eapply call_intro; [reflexivity|]; run).
  destruct E as (g2 & E). apply C1 in E. destruct E as (n & E). clear - E. fin. cbn in *. subst. discriminate.
Qed.
Print Assumptions C72_comma_refuted.

(** ** A statement with a call of a void function is removed *)
(* void f(int p, int q) { }  int main(int a, int b) { for (f(0, 0); a; a = 0) x = 1; return x; } *)
Definition nopEx : func := Func 1 2 true [].
Definition voidEx : func :=
  Func 3 4 false [SFor (SExpr (call1 (EConst 0) (EConst 0))) (EVar 3) (EAssign 3 (EConst 0)) (SExpr (EAssign 0 (EConst 1))); SReturn (Some (EVar 0))].
Theorem C72_void_refuted : ~ C72_claim (Conds true false true).
Proof.
  intro C. specialize (C opEx extEx (prog voidEx nopEx) (fun f => f =? 1) 5 1).
  assert (W : wfProg (Conds true false true) (prog voidEx nopEx) (fun f => f =? 1) 5) by (intros [|[|f]] F E; [injection E as <-; reflexivity|injection E as <-; reflexivity|discriminate]).
  destruct (C W) as (C1 & _). specialize (C1 0 1%Z 0%Z zero 0%Z).
  assert (E : exists g2, call opEx extEx (transform (prog voidEx nopEx) (fun f => f =? 1) 1 5) 0 1 0 zero 0%Z g2) by (eexists; eapply call_intro; [reflexivity|]; run).
  destruct E as (g2 & E). apply C1 in E. destruct E as (n & E). clear - E. do 9 (fin; cbn [next nextE catch result look lookup frame fP fQ Nat.eqb Z.eqb fBody tl update option_map assignL assignG zero voidEx nopEx ] in *; subst; try discriminate).
Qed.
Print Assumptions C72_void_refuted.

(** ** Calls of a group of declarators are executed before all declarators *)
(* int f(int p, int q) { return p; }  int main(int a, int b) { int x = 1, y = f(x, 0); return y; } *)
Definition fstEx : func := Func 1 2 false [SReturn (Some (EVar 1))].
Definition groupEx : func :=
  Func 3 4 false [SDecl [(0, Some (EConst 1)); (5, Some (call1 (EVar 0) (EConst 0)))]; SReturn (Some (EVar 5))].
Theorem C72_group_refuted : ~ C72_claim (Conds true true false).
Proof.
  intro C. specialize (C opEx extEx (prog groupEx fstEx) (fun f => f =? 1) 6 1).
  assert (W : wfProg (Conds true true false) (prog groupEx fstEx) (fun f => f =? 1) 6) by (intros [|[|f]] F E; [injection E as <-; reflexivity|injection E as <-; reflexivity|discriminate]).
  destruct (C W) as (C1 & _). specialize (C1 0 0%Z 0%Z zero 0%Z).
  assert (E : exists g2, call opEx extEx (transform (prog groupEx fstEx) (fun f => f =? 1) 1 6) 0 0 0 zero 0%Z g2) by (eexists; eapply call_intro; [reflexivity|]; run).
  destruct E as (g2 & E). apply C1 in E. destruct E as (n & E). clear - E. do 9 (fin; cbn [next nextE catch result look lookup frame fP fQ Nat.eqb Z.eqb fBody tl update option_map assignL assignG zero groupEx fstEx ] in *; subst; try discriminate).
Qed.
Print Assumptions C72_group_refuted.
