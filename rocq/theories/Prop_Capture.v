(** C56: A pointer which is passed to a function and is marked as not captured does not outlive the call.

    Aliases of pointers and memory accesses of callees are analyzed under the assumption
    that an unmarked copy of such a pointer does not exist after the call. *)
From Coq Require Import ZArith List Bool Lia.
From Verif Require Import CaptureModel CaptureSpec CaptureProof.
Import ListNotations.
Local Open Scope Z_scope.

(** *** No instruction makes a copy of the argument visible outside.
    Missing (refuted below): pointers to memory of the function which are passed to callees,
    callees which keep some of arguments only, library functions which return an argument,
    new objects which contain pointers. *)
Theorem C56_not_captured_partial : forall F A fuel Arg reg returns s s',
  usesRight F -> uniformCalls F A -> returnedIsKept A returns ->
  isCaptured F A fuel Arg = NotCaptured reg -> initial F Arg s -> steps F A returns true s s' -> ~ captures F A s'.
Proof. exact not_captured. Qed.
Print Assumptions C56_not_captured_partial.

(** *** Memory which is known outside does not lead to a copy of the argument. *)
Theorem C56_memory_partial : forall F A fuel Arg reg returns s s' o off,
  usesRight F -> uniformCalls F A -> returnedIsKept A returns ->
  isCaptured F A fuel Arg = NotCaptured reg -> initial F Arg s -> steps F A returns true s s' ->
  exposed s' o -> ~ leadsToTaint s' (mem s' o off).
Proof. exact not_captured_memory. Qed.
Print Assumptions C56_memory_partial.

(** *** The search ends: each value is visited once. *)
Theorem C56_ends : forall F A vals Arg fuel,
  finiteValues F vals -> In Arg vals -> (length vals <= fuel)%nat -> isCaptured F A fuel Arg <> OutOfFuel.
Proof. intros F A vals Arg fuel H. exact (isCaptured_ends F A vals H Arg fuel). Qed.
Print Assumptions C56_ends.

(** Functions from lists of instructions *)
Definition lookup (l : list (nat * instr)) (i : nat) : option instr :=
  match find (fun x => Nat.eqb (fst x) i) l with Some x => Some (snd x) | None => None end.
Definition usesIn (v : nat) (x : nat * instr) : list (nat * nat) :=
  map (fun k => (fst x, k)) (filter (fun k => match nth_error (operands (snd x)) k with Some y => Nat.eqb y v | None => false end)
    (seq 0 (length (operands (snd x))))).
Definition build (l : list (nat * instr)) (leaf : nat -> leafKind) : func :=
  mkFunc (lookup l) leaf (fun v => flat_map (usesIn v) l).
Lemma build_right l leaf : NoDup (map fst l) -> usesRight (build l leaf).
Proof.
  intros ND v i k. cbn [build fUses fInstr].
  assert (HL : forall ins, lookup l i = Some ins <-> In (i, ins) l).
  { intros ins. unfold lookup. split.
    - destruct (find _ l) as [[j ins']|] eqn:E; [|discriminate]. intros H. injection H as <-. apply find_some in E.
      destruct E as [E1 E2]. cbn [fst] in E2. apply Nat.eqb_eq in E2. subst j. exact E1.
    - revert ND. induction l as [|[j ins'] l' IH]; intros ND H; [destruct H|]. cbn [find fst]. inversion ND as [|a b N1 N2 E]; subst.
      cbn [fst map] in *. destruct H as [H|H].
      + injection H as <- <-. rewrite Nat.eqb_refl. reflexivity.
      + destruct (Nat.eqb_spec j i) as [->|]; [|apply IH; assumption]. exfalso. apply N1. apply in_map_iff. exists (i, ins). auto. }
  rewrite in_flat_map. split.
  - intros ([j ins] & Hx & Hu). unfold usesIn in Hu. apply in_map_iff in Hu. destruct Hu as (k' & E & Hk). cbn [fst] in E. injection E as -> ->.
    exists ins. apply filter_In in Hk. destruct Hk as [_ Hk]. cbn [snd] in Hk. split; [apply HL, Hx|].
    destruct (nth_error (operands ins) k) as [y|]; [|discriminate]. apply Nat.eqb_eq in Hk. subst y. reflexivity.
  - intros (ins & Hi & Hk). exists (i, ins). split; [apply HL, Hi|]. unfold usesIn. apply in_map_iff. exists k. split; [reflexivity|].
    apply filter_In. cbn [snd]. split.
    + apply in_seq. split; [lia|]. apply nth_error_Some. congruence.
    + rewrite Hk. apply Nat.eqb_refl.
Qed.
Definition leafEx (v : nat) : leafKind := match v with 0%nat | 1%nat => KArg | 2%nat => KGlobal | _ => KConst end.
(** callee 1: keeps nothing, callee 2: keeps everything, callee 3: an allocating one *)
Definition attrEx : attributes :=
  mkAttr (fun g _ => Nat.eqb g 1) (fun g => Nat.eqb g 3) (fun _ => false) (fun _ => false).
(** void f(p, q) { a = &local; *a = p; x = *a; y = x + 1; *y = 3; g1(y); g = q;
    b = malloc(); *b = a; } *)
Definition exF : func := build
  [(10, IAlloca); (11, IStore 0 10); (12, ILoad 10); (13, IGep 12 [3]); (14, IStore 3 13);
   (15, ICall (Some 1) [13]); (16, IStore 1 2); (17, ICall (Some 3) []); (18, IStore 10 17)]%nat leafEx.
Definition exVals : list nat := [0; 1; 2; 3; 10; 11; 12; 13; 14; 15; 16; 17; 18]%nat.
Definition isNot (o : outcome) : bool := match o with NotCaptured _ => true | _ => false end.
(** The state at the beginning: the argument 0 points to the object 100, the argument 1 points to 101,
    the global variable is the object 102. *)
Definition s0 : mstate := mkM
  (fun x => match x with 0%nat => VPtr 100 0 true | 1%nat => VPtr 101 0 false | 2%nat => VPtr 102 0 false | _ => VInt end)
  (fun o off => VInt)
  (fun o => if Nat.leb o 99 then Unused else Outside).
Lemma s0_initial l : (forall x, (x < 3)%nat -> lookup l x = None) -> initial (build l leafEx) 0 s0.
Proof.
  intros Hl. repeat split.
  - intros o. cbn [s0 stat]. destruct (Nat.leb o 99); [left|right]; reflexivity.
  - intros [|[|[|x]]]; cbn [s0 env]; [right; exists 100%nat, 0|right; exists 101%nat, 0|right; exists 102%nat, 0|left; reflexivity]; split; reflexivity.
  - intros [|[|[|x]]] ins H; cbn [build fInstr] in H; try (rewrite Hl in H by lia; discriminate). reflexivity.
  - intros o off. left. reflexivity.
Qed.
Example C56_ex :
  isNot (isCaptured exF attrEx 20 0) = true /\ isCaptured exF attrEx 20 1 = Captured /\
  usesRight exF /\ uniformCalls exF attrEx /\ returnedIsKept attrEx (fun g _ => Nat.eqb g 2) /\ initial exF 0 s0 /\
  finiteValues exF exVals /\
  (exists s', steps exF attrEx (fun g _ => Nat.eqb g 2) true s0 s' /\ env s' 13 = VPtr 100 5 true /\ mem s' 5 0 = VPtr 100 0 true).
Proof.
  assert (ND : usesRight exF) by (apply build_right; cbn; repeat (constructor; [cbn; intuition discriminate|]); constructor).
  split; [reflexivity|]. split; [reflexivity|]. split; [exact ND|]. split; [|split; [|split; [|split]]].
  - intros i c args k l _ _ _. destruct c as [g|]; cbn [mayKeep]; auto.
  - intros g k H. apply Nat.eqb_eq in H. subst g. reflexivity.
  - apply s0_initial. intros [|[|[|x]]] H; try reflexivity; lia.
  - intros v Hv. split.
    + intros ins x Hi Hx. repeat (destruct Hv as [<-|Hv]; [cbn in Hi; try discriminate Hi; injection Hi as <-; cbn in Hx; cbn; tauto|]). destruct Hv.
    + intros i k Hi. apply ND in Hi. destruct Hi as (ins & Hi & _). cbn [exF build fInstr] in Hi. unfold lookup in Hi.
      destruct (find _ _) as [[j ins']|] eqn:E; [|discriminate]. apply find_some in E. destruct E as [E1 E2]. cbn [fst] in E2. apply Nat.eqb_eq in E2.
      subst j. cbn in E1. repeat (destruct E1 as [E1|E1]; [injection E1 as <- <-; cbn; tauto|]). destruct E1.
  - eexists. split; [|split].
    + eapply st_cons; [eapply st_cons; [eapply st_cons; [eapply st_cons; [apply st_nil|]|]|]|].
      * apply (s_alloca _ _ _ _ s0 10 5); reflexivity.
      * eapply (s_store _ _ _ _ _ 11 0 10); reflexivity.
      * eapply (s_load _ _ _ _ _ 12 10); reflexivity.
      * eapply (s_gep _ _ _ _ _ 13 12 [3%nat] _ _ _ 5); reflexivity.
    + reflexivity.
    + reflexivity.
Qed.

(** *** Refuted: a callee may find a copy of the argument in memory of the function.
    f(p) { a = &local; *a = p; g(a); }   g(q) { x = *q; global = x; }.  The parameter of g is not captured
    (as it is), so the parameter of f is also considered as not captured. *)
Definition fCaller : func := build [(10, IAlloca); (11, IStore 0 10); (12, ICall (Some 1) [10])]%nat leafEx.
Definition fCallee : func := build [(10, ILoad 0); (11, IStore 10 2)]%nat leafEx.
Definition attrNone : attributes := mkAttr (fun _ _ => false) (fun _ => false) (fun _ => false) (fun _ => false).
(** attributes after the callee was analyzed *)
Definition attrDone : attributes :=
  mkAttr (fun g _ => Nat.eqb g 1 && markArgument 20 attrNone (FDef fCallee) 0 false) (fun _ => false) (fun _ => false) (fun _ => false).
Theorem C56_local_memory_refuted :
  markArgument 20 attrDone (FDef fCaller) 0 false = true /\ usesRight fCaller /\ usesRight fCallee /\ initial fCaller 0 s0 /\
  exists s1 g0 g1 o off o' off',
    (* the call is reached *)
    steps fCaller attrDone (fun _ _ => false) true s0 s1 /\ fInstr fCaller 12 = Some (ICall (Some 1%nat) [10%nat]) /\
    (* the callee works in the same memory *)
    mem g0 = mem s1 /\ stat g0 = stat s1 /\ env g0 0%nat = env s1 10%nat /\
    steps fCallee attrDone (fun _ _ => false) true g0 g1 /\
    stat g1 o = Outside /\ mem g1 o off = VPtr o' off' true.
Proof.
  split; [reflexivity|]. split; [apply build_right; cbn; repeat (constructor; [cbn; intuition discriminate|]); constructor|].
  split; [apply build_right; cbn; repeat (constructor; [cbn; intuition discriminate|]); constructor|].
  split; [apply s0_initial; intros [|[|[|x]]] H; try reflexivity; lia|].
  eexists. exists (mkM (fun x => match x with 0%nat => VPtr 5 0 false | 2%nat => VPtr 102 0 false | _ => VInt end)
    (mem (setMem (alloc s0 10 5 (fun _ => VInt)) 5 0 (VPtr 100 0 true))) (stat (alloc s0 10 5 (fun _ => VInt)))).
  eexists. exists 102%nat, 0, 100%nat, 0.
  split; [eapply st_cons; [eapply st_cons; [apply st_nil|]|]|].
  - apply (s_alloca _ _ _ _ s0 10 5); reflexivity.
  - eapply (s_store _ _ _ _ _ 11 0 10); reflexivity.
  - split; [reflexivity|]. split; [reflexivity|]. split; [reflexivity|]. split; [reflexivity|].
    split; [eapply st_cons; [eapply st_cons; [apply st_nil|]|]|].
    + eapply (s_load _ _ _ _ _ 10 0); reflexivity.
    + eapply (s_store _ _ _ _ _ 11 10 2); reflexivity.
    + split; reflexivity.
Qed.
Print Assumptions C56_local_memory_refuted.

(** *** Refuted: an instruction is checked once, for one of its operands.
    f(p) { g(p, p); }, only the first parameter of g is nocapture. *)
Definition fTwice : func := build [(10, ICall (Some 1) [0; 0])]%nat leafEx.
Definition attrFirst : attributes :=
  mkAttr (fun g k => Nat.eqb g 1 && Nat.eqb k 0) (fun _ => false) (fun _ => false) (fun _ => false).
Theorem C56_two_operands_refuted :
  markArgument 20 attrFirst (FDef fTwice) 0 false = true /\ usesRight fTwice /\ initial fTwice 0 s0 /\ captures fTwice attrFirst s0.
Proof.
  split; [reflexivity|]. split; [apply build_right; cbn; repeat (constructor; [cbn; intuition discriminate|]); constructor|].
  split; [apply s0_initial; intros [|[|[|x]]] H; try reflexivity; lia|].
  apply (c_call _ _ _ 10 (Some 1%nat) [0; 0]%nat 1 0); try reflexivity. constructor.
Qed.
Print Assumptions C56_two_operands_refuted.

(** *** Refuted: all parameters of library functions are marked, but such a function may
    return its argument: f(p) { x = strchr(p, 0); global = x; }. *)
Definition fStrchr : func := build [(10, ICall (Some 1) [0; 3]); (11, IStore 10 2)]%nat leafEx.
Definition attrLib : attributes :=
  mkAttr (fun g k => Nat.eqb g 1 && markArgument 20 attrNone FLib k false) (fun _ => false) (fun _ => false) (fun g => Nat.eqb g 1).
Theorem C56_library_refuted :
  markArgument 20 attrLib (FDef fStrchr) 0 false = true /\ usesRight fStrchr /\ uniformCalls fStrchr attrLib /\ initial fStrchr 0 s0 /\
  exists s', steps fStrchr attrLib (fun g k => Nat.eqb g 1 && Nat.eqb k 0) true s0 s' /\ captures fStrchr attrLib s'.
Proof.
  split; [reflexivity|]. split; [apply build_right; cbn; repeat (constructor; [cbn; intuition discriminate|]); constructor|].
  split; [intros i c args k l _ _ _; destruct c as [g|]; cbn [mayKeep]; auto|].
  split; [apply s0_initial; intros [|[|[|x]]] H; try reflexivity; lia|].
  eexists. split.
  - eapply st_cons; [apply st_nil|].
    apply (s_call_returned _ _ _ _ s0 10 1 [0; 3]%nat s0 0 0 100 0 true 4); try reflexivity.
    + intros x o off t [<-|[<-|[]]] H site; cbn [s0 env] in H; [injection H as <- <- <-|discriminate]. discriminate.
    + split; [reflexivity|]. split; [reflexivity|]. intros o off. left. reflexivity.
  - apply (c_store _ _ _ 11 10 2 102 0 false); try reflexivity; [constructor|]. apply ex_outside. reflexivity.
Qed.
Print Assumptions C56_library_refuted.

(** *** Refuted: an object which is returned by an allocating function may contain a pointer
    to memory of others: f(p) { b = make(); x = *b; *x = p; }. *)
Definition fMake : func := build [(10, ICall (Some 3) []); (11, ILoad 10); (12, IStore 0 11)]%nat leafEx.
Theorem C56_new_object_refuted :
  markArgument 20 attrEx (FDef fMake) 0 false = true /\ usesRight fMake /\ uniformCalls fMake attrEx /\
  returnedIsKept attrEx (fun _ _ => false) /\ initial fMake 0 s0 /\
  exists s', steps fMake attrEx (fun _ _ => false) false s0 s' /\ captures fMake attrEx s'.
Proof.
  split; [reflexivity|]. split; [apply build_right; cbn; repeat (constructor; [cbn; intuition discriminate|]); constructor|].
  split; [intros i c args k l _ _ _; destruct c as [g|]; cbn [mayKeep]; auto|].
  split; [intros g k H; discriminate|].
  split; [apply s0_initial; intros [|[|[|x]]] H; try reflexivity; lia|].
  eexists. split.
  - eapply st_cons; [eapply st_cons; [apply st_nil|]|].
    + apply (s_call_new _ _ _ _ s0 10 3 [] s0 5 (fun _ => VPtr 102 0 false)); try reflexivity.
      * intros x o off t [].
      * split; [reflexivity|]. split; [reflexivity|]. intros o off. left. reflexivity.
      * intros off. right. split; [reflexivity|]. right. exists 102%nat, 0. split; [reflexivity|]. apply ex_outside. reflexivity.
    + eapply (s_load _ _ _ _ _ 11 10); reflexivity.
  - apply (c_store _ _ _ 12 0 11 102 0 false); try reflexivity; [constructor|]. apply ex_outside. reflexivity.
Qed.
Print Assumptions C56_new_object_refuted.

(** *** Refuted: the analysis itself dereferences a null pointer.
    f(p) { a = &local; *a = p; *a = fp(); }. *)
Definition fIndirect : func := build [(10, IAlloca); (11, IStore 0 10); (12, ICall None [3]); (13, IStore 12 10)]%nat leafEx.
Theorem C56_indirect_call_refuted : usesRight fIndirect /\ isCaptured fIndirect attrEx 20 0 = NullDeref.
Proof. split; [|reflexivity]. apply build_right; cbn; repeat (constructor; [cbn; intuition discriminate|]); constructor. Qed.
Print Assumptions C56_indirect_call_refuted.
