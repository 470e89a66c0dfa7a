(** C85: choice of variables and functions for interprocedural optimization of data transfer. *)
From Coq Require Import PeanoNat Bool List.
From Verif Require Import IpoModel IpoSpec IpoProof.
Import ListNotations.

(* A is 5, B is 6, C is 7.  main passes &A to a function which reads its parameter, reads B and
   stores &C; the function 2 accesses A and B by names, the function 3 is a library one *)
Definition progG : list func :=
  [fun0 [ICall (Some 1) [OGlob 5; OOther] 0; ILoad (OGlob 6) 1; IStore (OGlob 7) OOther; ICall (Some 2) [] 2; ICall (Some 3) [OGlob 6] 3] [];
   fun0 [ICast (OGlob 5); ILoad (OArg 0) 0; IStore (ORes 0) (OGlob 6)] [true; false];
   fun0 [ILoad (OGlob 5) 0; IOther [ORes 0] 1; IStore (ORes 1) (OGlob 6); IRet OOther] [];
   Func [] true true [true] [] false false false].
Definition orderG : list nat := [0; 1; 2].

(** The full statement is C85_named_claim false false false false false. *)
Theorem C85_named_partial : C85_named_claim true true true true true.
Proof. exact named_true. Qed.
Print Assumptions C85_named_partial.
Ltac funG N := match type of N with nth_error _ ?f = _ => destruct f as [|[|[|[|f]]]] end; cbn in N;
  match type of N with nth_error [] ?h = _ => destruct h; discriminate N | _ => injection N as <- end.
Example C85_named_case : orderOk progG orderG /\ attributesOk progG /\
  (forall f k o c args t, derived progG f k o -> hasInstr progG f (ICall c args t) -> ~ In o args) /\
  (forall f x, nth_error progG f = Some x -> analyzed x) /\
  (let s := initializeIPO progG (fun c => c) false orderG [5; 6; 7] [6; 7] in
   sAct s = [5; 6] /\ sGet s = [6] /\ sMap s = [(0, (true, [])); (1, (false, [5])); (2, (true, []))]) /\
  accessed progG 2 (OGlob 6) /\ holds progG [] 1 (OArg 0) 5.
Proof.
  assert (Dv : forall f k o, derived progG f k o -> o = OArg k).
  { intros f k o D. induction D as [|os t o Hi Io D IH]; [reflexivity|]. subst o. exfalso.
    destruct Hi as (x & N & I1). funG N; cbn in I1; repeat (destruct I1 as [I1|I1]); try contradiction; try discriminate I1.
    injection I1 as <- <-. destruct Io as [Q|[]]; discriminate Q. }
  split; [intros f x N; funG N; cbn; tauto|].
  split.
  { intros f k o _ D. rewrite (Dv f k o D). split; [intros p Hi|intro Hi];
    destruct Hi as (x & N & I1); funG N; cbn in I1; repeat (destruct I1 as [I1|I1]); try contradiction; discriminate I1. }
  split.
  { intros f k o c args t D (x & N & I1). rewrite (Dv f k o D).
    funG N; cbn in I1; repeat (destruct I1 as [I1|I1]); try contradiction; try discriminate I1;
    injection I1 as <- <- <-; cbn; intuition discriminate. }
  split; [intros f x N D; funG N; try discriminate D; split; reflexivity|].
  split; [repeat split; reflexivity|].
  split; [right; left; exists (ORes 1); eexists; split; [reflexivity|cbn; tauto]|].
  apply (HArg progG [] 0 1 [OGlob 5; OOther] 0 0 (OGlob 5)); [|reflexivity|apply HGlob]. eexists. split; [reflexivity|left; reflexivity].
Qed.
(** Variables to ignore are attached to a function of a server. *)
Theorem C85_named_refuted_server : ~ C85_named_claim false true true true true.
Proof. exact named_refuted_server. Qed.
Print Assumptions C85_named_refuted_server.
(** A function passes its parameter to another one. *)
Theorem C85_named_refuted_chain : ~ C85_named_claim true false true true true.
Proof. exact named_refuted_chain. Qed.
Print Assumptions C85_named_refuted_chain.
(** A pointer is initialized with the address. *)
Theorem C85_named_refuted_init : ~ C85_named_claim true true false true true.
Proof. exact named_refuted_init. Qed.
Print Assumptions C85_named_refuted_init.
(** A function outside optimization regions stores the address. *)
Theorem C85_named_refuted_outside : ~ C85_named_claim true true true false true.
Proof. exact named_refuted_outside. Qed.
Print Assumptions C85_named_refuted_outside.
(** The address is converted to an integer in a constant expression. *)
Theorem C85_named_refuted_expr : ~ C85_named_claim true true true true false.
Proof. exact named_refuted_expr. Qed.
Print Assumptions C85_named_refuted_expr.

Theorem C85_enabled : C85_enabled_claim.
Proof. exact enabled_true. Qed.
Print Assumptions C85_enabled.
(* enabled: 0; outside regions: 1; in a parallel loop: 2; called from outside: 3; the address is
   taken: 4; contains regions: 5; conditionally: 6 *)
Definition progN : list func :=
  [Func [] false false [] [CSNo; CSAlways] false false false; Func [] false false [] [CSNo; CSNo] false false false;
   Func [] false false [] [] true false false; Func [] false false [] [] false true false;
   Func [] false false [] [] false false true; Func [] false false [] [CSChild] false false false;
   Func [] false false [] [CSChild; CSCondition] false false false].
Example C85_enabled_case :
  sMap (initializeIPO progN (fun c => c) false [0; 1; 2; 3; 4; 5; 6] [] []) =
    [(0, (true, [])); (3, (false, [])); (4, (false, [])); (5, (false, [])); (6, (true, []))] /\
  find 3 (sMap (initializeIPO progN (fun c => c) true [0; 1; 2; 3; 4; 5; 6] [] [])) = Some (true, []).
Proof. split; reflexivity. Qed.

Theorem C85_exact : C85_exact_claim.
Proof. exact exact_true. Qed.
Print Assumptions C85_exact.
Example C85_exact_case :
  (forall f, In f orderG -> exists x, nth_error progG f = Some x) /\
  sValid (initializeIPO progG (fun c => c) false orderG [5; 6; 7] [6; 7]) = true /\
  sAct (initializeIPO progG (fun c => c) false orderG [5; 6; 7] [6; 7]) = [5; 6] /\
  (let s := initializeIPO progG (fun c => c) false [0; 1; 2; 3] [5; 6; 7] [6; 7] in
   sValid s = false /\ sAct s = [] /\ sGet s = []) /\
  sAct (initializeIPO [fun0 [ICall (Some 1) [OGlob 5] 0; ICall None [OGlob 6] 1; IOther [OGlob 7] 2; IRet (OGlob 8); IStore OOther (OGlob 9)] []; fun0 [] [false]]
    (fun c => c) false [0; 1] [5; 6; 7; 8; 9] []) = [9].
Proof.
  split; [|repeat split; reflexivity].
  intros f [<-|[<-|[<-|[]]]]; eexists; reflexivity.
Qed.

Theorem C85_complete : C85_complete_claim.
Proof. exact complete_true. Qed.
Print Assumptions C85_complete.
Example C85_complete_case : In 2 orderG /\
  (forall h c args t g, hasInstr progG h (ICall (Some c) args t) -> In (OGlob g) args -> c <> 2) /\
  find 2 (sMap (initializeIPO progG (fun c => c) false orderG [5; 6; 7] [6; 7])) = Some (true, []).
Proof.
  split; [cbn; tauto|]. split; [|reflexivity].
  intros h c args t g (x & N & I1) Ig. funG N; cbn in I1; repeat (destruct I1 as [I1|I1]); try contradiction; try discriminate I1;
  injection I1 as <- <- <-; try discriminate. destruct Ig.
Qed.
