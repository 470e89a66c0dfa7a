(** C55: Global variables referenced by a call of a function are collected.

    The analysis of memory in a caller uses the set of global variables which is stored for a
    callee instead of looking into it. *)
From Coq Require Import List Bool Arith Lia.
From Verif Require Import GlobalsModel GlobalsSpec GlobalsProof.
Import ListNotations.

(** *** A variable which is mentioned by a function or by its callees (at any depth) is in
    the set.  Missing (refuted below): calls through library functions, casts of integers to
    pointers, aggregates. *)
Theorem C55_referenced_partial : forall M SCCs SCC f g,
  (forall h v, In v (gOperands M h) -> simple v) ->
  (forall h v x, In v (gOperands M h) -> mentions v x -> In x (gGlobals M)) ->
  calleesFirst M SCCs -> In SCC SCCs -> In (Some f) SCC -> ~ special M f ->
  references M (special M) f g -> In g (runOnModule M SCCs f).
Proof. intros M SCCs SCC f g H1 H2 H3. exact (complete M H1 H2 SCCs H3 SCC f g). Qed.
Print Assumptions C55_referenced_partial.

(** *** A variable is in the set only if some function, which is called from the given
    one, mentions it or is not known. *)
Theorem C55_precise : forall M SCCs f g, connected M SCCs -> In g (runOnModule M SCCs f) ->
  exists h, calls M f h /\
    ((gEmpty M h = false /\ exists v, In v (gOperands M h) /\ mentions v g) \/
     (In None (gEdges M h) /\ In g (gGlobals M)) \/
     (gEmpty M h = true /\ gLib M h = true /\ In g (gGlobals M))).
Proof. intros M SCCs f g H. exact (precise M SCCs H f g). Qed.
Print Assumptions C55_precise.

(** main (0) calls f (1); f and g (2) call each other; g references variables 10 and 11 (as an
    integer), main references 12; u (3) calls an unknown function; 13 is referenced nowhere. *)
Definition exG : gmodule := {|
  gGlobals := [10; 11; 12; 13]; gEmpty := fun _ => false; gIntrinsic := fun _ => false; gLib := fun _ => false; gArgMemOnly := fun _ => false;
  gEdges := fun f => match f with 0 => [Some 1] | 1 => [Some 2] | 2 => [Some 1] | 3 => [None] | _ => [] end;
  gOperands := fun f => match f with 0 => [VGlobal 12; VOther] | 2 => [VAddr (VAddr (VGlobal 10)); VPtrToInt (VGlobal 11)] | _ => [] end |}.
Definition exSCC : list (list (option nat)) := [[Some 1; Some 2]; [Some 3]; [Some 0]].
Example C55_ex :
  runOnModule exG exSCC 0 = [10; 11; 12] /\ runOnModule exG exSCC 1 = [10; 11] /\ runOnModule exG exSCC 3 = [10; 11; 12; 13] /\
  calleesFirst exG exSCC /\ connected exG exSCC /\ (forall h v, In v (gOperands exG h) -> simple v) /\
  (forall h v x, In v (gOperands exG h) -> mentions v x -> In x (gGlobals exG)) /\
  references exG (special exG) 0 11.
Proof.
  split; [reflexivity|]. split; [reflexivity|]. split; [reflexivity|]. split; [|split; [|split; [|split]]].
  - intros b S_ a E f c Hf He.
    destruct b as [|b0 [|b1 [|b2 [|b3 b]]]]; cbn [app] in E; try discriminate; injection E; intros; subst; cbn in Hf.
    + left. destruct Hf as [Hf|[Hf|[]]]; injection Hf as <-; destruct He as [He|[]]; injection He as <-; cbn; tauto.
    + destruct Hf as [Hf|[]]; injection Hf as <-; destruct He as [He|[]]; discriminate.
    + destruct Hf as [Hf|[]]; injection Hf as <-; destruct He as [He|[]]; injection He as <-. right. exists [Some 1; Some 2]. cbn; tauto.
  - assert (R12 : calls exG 1 2) by (apply (c_step exG 1 2 2); [left; reflexivity|constructor]).
    assert (R21 : calls exG 2 1) by (apply (c_step exG 2 1 1); [left; reflexivity|constructor]).
    intros S_ f [<-|[<-|[<-|[]]]] Hf n Hn.
    + destruct Hf as [Hf|[Hf|[]]]; injection Hf as <-; destruct Hn as [<-|[<-|[]]]; eexists; (split; [reflexivity|]); try constructor; assumption.
    + destruct Hf as [Hf|[]]; injection Hf as <-; destruct Hn as [<-|[]]. eexists; (split; [reflexivity|]); constructor.
    + destruct Hf as [Hf|[]]; injection Hf as <-; destruct Hn as [<-|[]]. eexists; (split; [reflexivity|]); constructor.
  - intros [|[|[|h]]] v Hv; cbn in Hv; try contradiction.
    + destruct Hv as [<-|[<-|[]]]; [intros _; left; constructor|intros [g Hg]; inversion Hg].
    + destruct Hv as [<-|[<-|[]]]; intros _; [left; repeat constructor|right; exists (VGlobal 11); split; [constructor|reflexivity]].
  - intros [|[|[|h]]] v x Hv Hm; cbn in Hv; try contradiction;
      destruct Hv as [<-|[<-|[]]]; repeat (inversion Hm as [y|w y Hm'|w y Hm'|w y Hm'|ws w y Hw Hm']; subst; clear Hm; try rename Hm' into Hm); cbn; tauto.
  - assert (NS : forall f, ~ special exG f) by (intros f [H|[H|H]]; discriminate).
    apply (r_call exG _ 0 1); [left; reflexivity|apply NS|]. apply (r_call exG _ 1 2); [left; reflexivity|apply NS|].
    apply (r_own exG _ 2 (VPtrToInt (VGlobal 11))); [reflexivity|right; left; reflexivity|repeat constructor].
Qed.

(** *** Refutations *)
(** main (0) calls qsort(..., cmp), cmp (2) references the variable 10.  qsort (1) is a library
    function without a body, it calls unknown functions.  The set of main is empty. *)
Theorem C55_callback_refuted : exists M SCCs f h g,
  calleesFirst M SCCs /\ connected M SCCs /\ ~ special M f /\ ~ special M h /\
  references M (fun _ => False) f g /\ (exists v, In v (gOperands M h) /\ mentions v g) /\ In (Some f) (concat SCCs) /\
  runOnModule M SCCs h = [g] /\ runOnModule M SCCs f = [].
Proof.
  exists {| gGlobals := [10]; gEmpty := fun f => Nat.eqb f 1; gIntrinsic := fun _ => false; gLib := fun f => Nat.eqb f 1; gArgMemOnly := fun _ => false;
    gEdges := fun f => match f with 0 => [Some 1] | 1 => [None] | _ => [] end;
    gOperands := fun f => match f with 2 => [VGlobal 10] | _ => [] end |}.
  exists [[Some 1]; [Some 2]; [Some 0]], 0, 2, 10. split; [|split; [|split; [|split; [|split; [|split; [|split]]]]]].
  - intros b S_ a E f c Hf He.
    destruct b as [|b0 [|b1 [|b2 [|b3 b]]]]; cbn [app] in E; try discriminate; injection E; intros; subst; cbn in Hf;
      destruct Hf as [Hf|[]]; injection Hf as <-; cbn in He; try contradiction; destruct He as [He|[]]; try discriminate.
    injection He as <-. right. exists [Some 1]. cbn; tauto.
  - intros S_ f [<-|[<-|[<-|[]]]] Hf n Hn; destruct Hf as [Hf|[]]; injection Hf as <-; destruct Hn as [<-|[]]; eexists; (split; [reflexivity|]); constructor.
  - intros [H|[H|H]]; discriminate.
  - intros [H|[H|H]]; discriminate.
  - eapply (r_call _ _ 0 1); [left; reflexivity|intros []|]. apply r_unknown; left; reflexivity.
  - exists (VGlobal 10). split; [left; reflexivity|constructor].
  - cbn; tauto.
  - split; reflexivity.
Qed.
Print Assumptions C55_callback_refuted.
(** An operand (int * )((long)&x + 4) or {&x, 0}. *)
Theorem C55_integer_to_pointer_refuted : exists M SCCs f g v,
  ~ special M f /\ In v (gOperands M f) /\ v = VAddr (VIntToPtr (VPtrToInt (VGlobal g))) /\ references M (special M) f g /\
  In (Some f) (concat SCCs) /\ runOnModule M SCCs f = [].
Proof.
  exists {| gGlobals := [10]; gEmpty := fun f => false; gIntrinsic := fun _ => false; gLib := fun f => false; gArgMemOnly := fun _ => false;
    gEdges := fun f => []; gOperands := fun f => [VAddr (VIntToPtr (VPtrToInt (VGlobal 10)))] |}.
  exists [[Some 0]], 0, 10, (VAddr (VIntToPtr (VPtrToInt (VGlobal 10)))).
  split; [intros [H|[H|H]]; discriminate|]. split; [left; reflexivity|]. split; [reflexivity|]. split; [|split; [left; reflexivity|reflexivity]].
  eapply r_own; [reflexivity|left; reflexivity|repeat constructor].
Qed.
Print Assumptions C55_integer_to_pointer_refuted.
Theorem C55_aggregate_refuted : exists M SCCs f g,
  ~ special M f /\ gOperands M f = [VAggregate [VGlobal g; VOther]] /\ references M (special M) f g /\
  In (Some f) (concat SCCs) /\ runOnModule M SCCs f = [].
Proof.
  exists {| gGlobals := [10]; gEmpty := fun f => false; gIntrinsic := fun _ => false; gLib := fun f => false; gArgMemOnly := fun _ => false;
    gEdges := fun f => []; gOperands := fun f => [VAggregate [VGlobal 10; VOther]] |}.
  exists [[Some 0]], 0, 10.
  split; [intros [H|[H|H]]; discriminate|]. split; [reflexivity|]. split; [|split; [left; reflexivity|reflexivity]].
  eapply r_own; [reflexivity|left; reflexivity|]. eapply me_agg; [left; reflexivity|constructor].
Qed.
Print Assumptions C55_aggregate_refuted.
