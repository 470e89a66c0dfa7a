(** C68: elimination of unreachable code keeps results of an execution which is covered by a profile *)
From Coq Require Import List Bool Arith ZArith Lia.
From Verif Require Import UnrModel UnrSpec UnrProof.
Import ListNotations.

(** ** Results *)
Theorem C68_results_partial : C68_with (Conds true true true true true true true).
Proof.
  intros op conv oracle cmp count hm p vars n o s Hcmp Hconv E C OK.
  exact (eliminate_ok op conv oracle cmp count hm Hcmp Hconv p vars n o s E C OK).
Qed.
Print Assumptions C68_results_partial.

Definition minus (f : nat) (x y : Z) : Z := if f =? 0 then (x - y)%Z else b2z (Z.ltb x y).
Definition parity (k : nat) (z : Z) : Z := if k =? 0 then z else (z mod 2)%Z.
Definition zeroes (f : nat) (z : Z) (l : list (nat * Z)) : Z := 0%Z.
Definition isLess (f : nat) : bool := negb (f =? 0).
Definition dead (l : list nat) (r : nat) : nat := if existsb (Nat.eqb r) l then 0 else 1.
Definition noMacro (i : nat) : bool := false.
Lemma minus_less f x y : isLess f = true -> minus f x y = 0%Z \/ minus f x y = 1%Z.
Proof. unfold isLess, minus. destruct (f =? 0); [discriminate|]. intros _. destruct (Z.ltb x y); cbn; auto. Qed.
Lemma parity_0 z : parity 0 z = z. Proof. reflexivity. Qed.

(** A loop with a branch which is not executed, with a logical operator, a conditional operator and a
    loop which are simplified *)
Definition demo : list stmt :=
  [SDecl 1 1 (EConst 3);
   SWhile 2 (ELog true (EBin 1 (EConst 0) (EVar 1)) 3 (EConst 1)) (SBlock 4
     [SIf 5 (ECall 7 (EVar 1)) (SBlock 6 [SExpr 7 (EAssign 0 (EConst 100))])
        (Some (SBlock 8 [SExpr 9 (EAssign 1 (EBin 0 (EVar 1) (EConst 1)));
                         SExpr 10 (EAssign 2 (ECond (EVar 9) 11 (EVar 8) 1 12 (EBin 0 (EVar 2) (EVar 1)) 0))]));
      SFor 13 (Some (IDecl 4 (EConst 5))) (Some (EBin 1 (EVar 4) (EConst 2))) (Some (EAssign 4 (EConst 0))) (SBlock 14 [SBreak 15])]);
   SIf 16 (ELog true (EVar 9) 17 (ECall 8 (EConst 1))) (SBlock 18 [SRet 19 (EConst 0)]) None;
   SRet 20 (EVar 2)].
Definition demoDead : list nat := [6; 7; 11; 14; 15; 17; 18; 19].
Example C68_results_ex : exists s,
  exec minus parity zeroes 60 demo (St (fun _ => 0%Z) [] []) = Some (Ret (-3)%Z, s) /\
  (forall r, In r (sVisits s) -> 0 < dead demoDead r) /\
  forallb (stmtOk isLess (dead demoDead) noMacro (Conds true true true true true true true)) demo = true /\
  eliminate (dead demoDead) noMacro demo =
    [TDecl 1 (EConst 3); TSemi;
     TWhile (ELog true (EBin 1 (EConst 0) (EVar 1)) 3 (EConst 1)); TOpen;
       TExpr (ECall 7 (EVar 1)); TSemi;
       TExpr (EAssign 1 (EBin 0 (EVar 1) (EConst 1))); TSemi;
       TExpr (EAssign 2 (EBin 0 (EVar 2) (EVar 1))); TSemi;
       TFor (Some (IDecl 4 (EConst 5))) (Some (EBin 1 (EVar 4) (EConst 2))) None; TSemi; TClose;
     TExpr (EVar 9); TSemi;
     TRet (EVar 2); TSemi].
Proof.
  eexists. split; [vm_compute; reflexivity|]. split; [|split; vm_compute; reflexivity].
  intros r A. assert (F : forallb (fun r => 0 <? dead demoDead r) (sVisits match exec minus parity zeroes 60 demo (St (fun _ => 0%Z) [] []) with Some (_, s) => s | None => St (fun _ => 0%Z) [] [] end) = true)
    by (vm_compute; reflexivity).
  rewrite forallb_forall in F. apply Nat.ltb_lt, F. vm_compute. exact A.
Qed.

(** *** Each condition is required *)
Lemma refute X count hm vars p n o s bad :
  exec minus parity zeroes n p (St vars [] []) = Some (o, s) ->
  forallb (fun r => 0 <? count r) (sVisits s) = true ->
  forallb (stmtOk isLess count hm X) p = true ->
  (forall p' o' s', parse (eliminate count hm p) = Some p' -> exec minus parity zeroes n p' (St vars [] []) = Some (o', s') -> sVars s' bad <> sVars s bad) ->
  (forall p', parse (eliminate count hm p) = Some p' -> exec minus parity zeroes n p' (St vars [] []) <> None) ->
  ~ C68_with X.
Proof.
  intros E C OK D T H.
  destruct (H minus parity zeroes isLess count hm p vars n o s minus_less parity_0 E) as (p' & n' & s' & P & E' & V & _).
  - intros r A. rewrite forallb_forall in C. now apply Nat.ltb_lt, C.
  - exact OK.
  - destruct (exec minus parity zeroes n p' (St vars [] [])) as [[o1 s1]|] eqn:E1; [|now apply (T p' P)].
    pose proof (exec_le _ _ _ n (n + n') _ _ _ ltac:(lia) E1) as A.
    pose proof (exec_le _ _ _ n' (n + n') _ _ _ ltac:(lia) E') as B.
    assert (s1 = s') by congruence. subst s1. apply (D p' o1 s' P E1). now rewrite V.
Qed.
Ltac refuted count hm vars p n bad :=
  apply (refute _ count hm vars p n Normal
    (match exec minus parity zeroes n p (St vars [] []) with Some (_, s) => s | None => St vars [] [] end) bad);
  [vm_compute; reflexivity|vm_compute; reflexivity|vm_compute; reflexivity| |];
  [intros p' o' s' P E; vm_compute in P; try discriminate P; injection P as <-; vm_compute in E; injection E as <- <-; vm_compute; discriminate
  |intros p' P; vm_compute in P; try discriminate P; injection P as <-; vm_compute; discriminate].
Definition vals (l : list Z) (v : nat) : Z := nth v l 0%Z.

(** [x = a || f();] with a = 5 becomes [x = a;] *)
Theorem C68_or_refuted : ~ C68_with (Conds false true true true true true true).
Proof. refuted (dead [2]) noMacro (vals [0; 5]%Z) [SExpr 1 (EAssign 0 (ELog false (EVar 1) 2 (ECall 5 (EConst 0))))] 5 0. Qed.
Print Assumptions C68_or_refuted.

(** [x = c ? (T)a : b;] becomes [x = a;] where [T] is a common type of branches *)
Theorem C68_type_refuted : ~ C68_with (Conds true false true true true true true).
Proof. refuted (dead [3]) noMacro (vals [0; 1; 5; 0]%Z) [SExpr 1 (EAssign 0 (ECond (EVar 1) 2 (EVar 2) 1 3 (EVar 3) 1))] 5 0. Qed.
Print Assumptions C68_type_refuted.

(** [x = c ? a, b : d;] becomes [x = a, b;] *)
Theorem C68_comma_refuted : ~ C68_with (Conds true true false true true true true).
Proof. refuted (dead [4]) noMacro (vals [0; 1; 7; 9]%Z) [SExpr 1 (EAssign 0 (ECond (EVar 1) 2 (EComma (EVar 2) (EVar 3)) 0 4 (EVar 5) 0))] 5 0. Qed.
Print Assumptions C68_comma_refuted.

(** [x = (f() ? a : b) - 1;]: a closing parenthesis is inserted before [b] *)
Theorem C68_place_refuted : ~ C68_with (Conds true true true false true true true).
Proof. refuted (dead [2]) noMacro (vals [0; 1; 7; 9]%Z)
  [SExpr 1 (EAssign 0 (EBin 0 (EParen (ECond (ECall 5 (EConst 0)) 2 (EVar 1) 0 3 (EVar 2) 0)) (EConst 1)))] 5 0. Qed.
Print Assumptions C68_place_refuted.

(** [while (i) if (c) { x = 9; } else { i = i - 1; k = k - 1; }] becomes [while (i) i = i - 1; k = k - 1;] *)
Theorem C68_braces_refuted : ~ C68_with (Conds true true true true false true true).
Proof. refuted (dead [3; 4]) noMacro (vals [2; 0; 0]%Z)
  [SWhile 1 (EVar 0) (SIf 2 (EVar 1) (SBlock 3 [SExpr 4 (EAssign 2 (EConst 9))])
     (Some (SBlock 5 [SExpr 6 (EAssign 0 (EBin 0 (EVar 0) (EConst 1))); SExpr 7 (EAssign 2 (EBin 0 (EVar 2) (EConst 1)))])))] 20 2. Qed.
Print Assumptions C68_braces_refuted.

(** [M(c) { x = 9; } x = 1;] becomes [M(c) x = 1;] where [M(c)] is [while (c)] *)
Theorem C68_macro_refuted : ~ C68_with (Conds true true true true true false true).
Proof. refuted (dead [2; 3]) (fun _ : nat => true) (vals [0; 0]%Z)
  [SWhile 1 (EVar 1) (SBlock 2 [SExpr 3 (EAssign 0 (EConst 9))]); SExpr 4 (EAssign 0 (EConst 1))] 8 0. Qed.
Print Assumptions C68_macro_refuted.

(** [for (; f(); x = x - 1) { x = 9; }] becomes [f(); x = x - 1] without a semicolon *)
Theorem C68_increment_refuted : ~ C68_with (Conds true true true true true true false).
Proof. refuted (dead [2; 3]) noMacro (vals [0; 0]%Z)
  [SFor 1 None (Some (ECall 5 (EConst 0))) (Some (EAssign 0 (EBin 0 (EVar 0) (EConst 1)))) (SBlock 2 [SExpr 3 (EAssign 0 (EConst 9))]);
   SExpr 4 (EAssign 0 (EConst 1))] 8 0. Qed.
Print Assumptions C68_increment_refuted.

(** ** Coverage *)
(** A range is unreachable iff each segment of a profile which is active in the range is not executed *)
Theorem C68_coverage_partial : C68_coverage_claim (fun segs bl bc el ec =>
  (exists s, nth_error segs 0 = Some s /\ segLe s bl bc = true) /\ exists t, In t segs /\ segLe t el ec = false).
Proof. exact coverage_ok. Qed.
Print Assumptions C68_coverage_partial.
Definition segs0 : list segment := [Seg 1 1 4 true; Seg 2 3 0 true; Seg 2 9 0 true; Seg 3 1 4 true; Seg 5 2 0 false].
Example C68_coverage_ex : sorted segs0 /\ isUnreachable segs0 2 4 2 30 = Some true /\ isUnreachable segs0 2 4 3 30 = Some false /\
  isUnreachable segs0 2 2 2 30 = Some false.
Proof. cbn [segs0 sorted]. repeat split; reflexivity. Qed.

(** a range which starts before the first segment *)
Theorem C68_before_refuted : ~ C68_coverage_claim (fun segs bl bc el ec => exists t, In t segs /\ segLe t el ec = false).
Proof.
  intros H. destruct (H segs0 0 1 4 1) as (r & E & K).
  - cbn [segs0 sorted]. repeat split; reflexivity.
  - reflexivity.
  - exists (Seg 5 2 0 false). split; [do 4 right; left; reflexivity|reflexivity].
  - vm_compute in E. injection E as <-. destruct (proj1 K eq_refl 0 (Seg 1 1 4 true) eq_refl) as [_ A]; [|discriminate A].
    exists (Seg 1 1 4 true). split; [reflexivity|split; [reflexivity|]]. intros t T. injection T as <-. reflexivity.
Qed.
Print Assumptions C68_before_refuted.

(** a range which is not followed by a segment: an element after the last one is read *)
Theorem C68_after_refuted : ~ C68_coverage_claim (fun segs bl bc el ec => exists s, nth_error segs 0 = Some s /\ segLe s bl bc = true).
Proof.
  intros H. destruct (H [Seg 1 1 4 true; Seg 2 3 0 true] 2 4 2 8) as (r & E & _).
  - cbn [sorted]. repeat split; reflexivity.
  - reflexivity.
  - exists (Seg 1 1 4 true). split; reflexivity.
  - vm_compute in E. discriminate E.
Qed.
Print Assumptions C68_after_refuted.
