(** C54: Attributes of functions and loops tell the truth.

    A function which is marked as a function without input/output performs no input/output at
    any depth of calls, a function which is marked as always returning returns, etc.  Other
    passes rely on it when they move or parallelize calls. *)
From Coq Require Import List Bool Arith String Lia.
From Verif Require Import AttrModel AttrSpec AttrProof.
Import ListNotations.
Local Open Scope list_scope.

(** No attributes which are deduced by the pass are in the module initially. *)
Definition fresh (a : attrs) : Prop := forall f, a NoIO f = false /\ a AlwaysReturn f = false /\ a DirectUserCallee f = false.
Lemma fresh_three a : fresh a -> forall k f, three k -> a k f = false.
Proof. intros H k f [-> | [-> | ->]]; apply H. Qed.

(** *** No input/output, for any order of components (even if they are wrong). *)
Theorem C54_no_io : forall M P a SCCs f, faithful M P -> ioTableComplete M P -> fresh a ->
  runPO M a SCCs NoIO f = true -> ~ performs P f EIO.
Proof.
  intros M P a SCCs f F T Ha Hf. apply (sound M P a SCCs NoIO f EIO F (fresh_three a Ha)); auto.
  - left; reflexivity.
  - discriminate.
Qed.
Print Assumptions C54_no_io.

(** *** A marked function never stops the program and never calls an unknown function.
    Missing: it may run forever, see the refutations. *)
Theorem C54_always_return_partial : forall M P a SCCs f, faithful M P -> externalsReturn M P a -> fresh a ->
  runPO M a SCCs AlwaysReturn f = true -> ~ performs P f EExit.
Proof.
  intros M P a SCCs f F T Ha Hf. apply (sound M P a SCCs AlwaysReturn f EExit F (fresh_three a Ha)); auto.
  - right; left; reflexivity.
  - discriminate.
Qed.
Print Assumptions C54_always_return_partial.

(** *** Only known functions are called by a marked function; it is also true if one of the
    other two attributes is deduced. *)
Theorem C54_direct_callees : forall M P a SCCs f, faithful M P -> fresh a ->
  runPO M a SCCs DirectUserCallee f = true \/ runPO M a SCCs NoIO f = true \/ runPO M a SCCs AlwaysReturn f = true ->
  ~ performs P f EUnknown.
Proof.
  intros M P a SCCs f F Ha H.
  assert (X : exists k, three k /\ runPO M a SCCs k f = true) by (unfold three; destruct H as [H|[H|H]]; eauto).
  destruct X as (k & Hk & Hf). apply (sound M P a SCCs k f EUnknown F (fresh_three a Ha) Hk); try discriminate. exact Hf.
Qed.
Print Assumptions C54_direct_callees.

(** *** If components are visited bottom-up nothing is lost: a function gets the attribute if
    all functions, which are reachable from it, are known and have nothing against it. *)
Theorem C54_no_io_complete : forall M a SCCs f, bottomUp M SCCs -> (exists SCC, In SCC SCCs /\ inSCC SCC f) ->
  (forall g, reach M f g -> ~ In None (mEdges M g) /\
     (mIntrinsic M g = true \/ (mLib M g = true /\ isIOLibFuncName (mName M g) = false) \/ (mLib M g = false /\ mDecl M g = false))) ->
  runPO M a SCCs NoIO f = true.
Proof.
  intros M a SCCs f HB HS HG. apply complete; [left; reflexivity|exact HB|exact HS|].
  intros g Hg. destruct (HG g Hg) as [N H]. split; [|exact N]. cbn [badFn]. unfold ioCandidate.
  destruct H as [-> |[[-> ->]|[-> ->]]]; [reflexivity| |]; destruct (mIntrinsic M g); reflexivity.
Qed.
Print Assumptions C54_no_io_complete.
Theorem C54_always_return_complete : forall M a SCCs f, bottomUp M SCCs -> (exists SCC, In SCC SCCs /\ inSCC SCC f) ->
  (forall g, reach M f g -> ~ In None (mEdges M g) /\
     (mWillReturn M g = true \/ (mNoReturn M g = false /\ (mDecl M g = false \/ mIntrinsic M g = true \/ a LibFunc g = true)))) ->
  runPO M a SCCs AlwaysReturn f = true.
Proof.
  intros M a SCCs f HB HS HG. apply complete; [right; left; reflexivity|exact HB|exact HS|].
  intros g Hg. destruct (HG g Hg) as [N H]. split; [|exact N]. cbn [badFn]. unfold mayNotReturn.
  destruct H as [-> |[-> [-> |[-> | ->]]]]; [reflexivity| | |]; destruct (mWillReturn M g), (mDecl M g), (mIntrinsic M g); reflexivity.
Qed.
Print Assumptions C54_always_return_complete.
Theorem C54_direct_callees_complete : forall M a SCCs f, bottomUp M SCCs -> (exists SCC, In SCC SCCs /\ inSCC SCC f) ->
  (forall g, reach M f g -> ~ In None (mEdges M g)) -> runPO M a SCCs DirectUserCallee f = true.
Proof.
  intros M a SCCs f HB HS HG. apply complete; [right; right; reflexivity|exact HB|exact HS|].
  intros g Hg. split; [reflexivity|exact (HG g Hg)].
Qed.
Print Assumptions C54_direct_callees_complete.

(** An example: main (0) calls f (1), f and g (2) call each other, g calls sqrt (3), f calls a
    debug intrinsic (4), main calls printf (5) and unknown (6), 7 calls f. *)
Local Open Scope string_scope.
Local Open Scope list_scope.
Definition exM : module := {|
  mFuncs := [0; 1; 2; 3; 4; 5; 6; 7];
  mName := fun f => match f with 0 => "main" | 1 => "f" | 2 => "g" | 3 => "sqrt" | 4 => "llvm.dbg.value" | 5 => "printf" | 6 => "unknown" | _ => "h" end;
  mIntrinsic := fun f => Nat.eqb f 4; mDbgInfo := fun f => Nat.eqb f 4;
  mLib := fun f => Nat.eqb f 3 || Nat.eqb f 5;
  mDecl := fun f => match f with 3 | 4 | 5 | 6 => true | _ => false end;
  mWillReturn := fun _ => false; mNoReturn := fun _ => false; mNoUnwind := fun f => Nat.eqb f 3; mReturnsTwice := fun _ => false;
  mEdges := fun f => match f with 0 => [Some 1; Some 5; Some 6] | 1 => [Some 2] | 2 => [Some 1; Some 3] | 6 => [None] | 7 => [Some 1] | _ => [] end;
  mUsers := fun f => match f with 1 => [UCall 0 true; UCall 2 true; UCall 7 true] | 2 => [UCall 1 true] | 3 => [UCall 2 true] | 5 => [UCall 0 true] | 6 => [UCast [UCall 0 true]] | _ => [] end |}.
Definition exSCCs : list (list (option nat)) := [[Some 3]; [Some 1; Some 2]; [Some 7]; [Some 5]; [None]; [Some 6]; [Some 0]].
Definition noAttrs : attrs := fun _ _ => false.
Definition exA := runPO exM (runRPO exM noAttrs exSCCs) exSCCs.
Example C54_ex : map (exA NoIO) [0; 1; 2; 3; 4; 5; 6; 7] = [false; true; true; true; true; false; false; true] /\
  map (exA AlwaysReturn) [0; 1; 2; 3; 4; 5; 6; 7] = [false; true; true; true; true; true; false; true] /\
  map (exA DirectUserCallee) [0; 1; 2; 3; 4; 5; 6; 7] = [false; true; true; true; true; true; false; true].
Proof. repeat split; reflexivity. Qed.
Definition exP : program := {|
  defined := fun f => match f with 3 | 4 | 5 | 6 => false | _ => true end;
  code := fun f pc => match f, pc with
    | 0, 0 => Some (ICall 1) | 0, 1 => Some (ICall 5) | 0, 2 => Some (ICall 6) | 0, 3 => Some IRet
    | 1, 0 => Some (ICall 4) | 1, 1 => Some (IGoto [2; 3]) | 1, 2 => Some (ICall 2) | 1, 3 => Some IRet
    | 2, 0 => Some (ICall 1) | 2, 1 => Some (ICall 3) | 2, 2 => Some IRet
    | 7, 0 => Some (ICall 1) | 7, 1 => Some IRet
    | _, _ => None end;
  extIO := fun f => f = 5 \/ f = 6; extExit := fun f => f = 6; extBack := fun f => f = 6 |}.
Lemma exFaithful : faithful exM exP.
Proof.
  constructor; cbn.
  - intros f. do 8 (destruct f as [|f]; [reflexivity|]). reflexivity.
  - intros f pc g H. destruct f as [|[|[|[|[|[|[|[|f]]]]]]]], pc as [|[|[|[|pc]]]]; try discriminate H; injection H as <-; cbn; try tauto.
    right. split; [reflexivity|]. unfold silent. cbn. repeat split; lia.
  - intros f pc H. destruct f as [|[|[|[|[|[|[|[|f]]]]]]]], pc as [|[|[|[|pc]]]]; discriminate H.
  - intros f ->. left; reflexivity.
  - intros f H. apply Nat.eqb_eq in H. subst f. unfold silent. cbn. repeat split; lia.
  - intros f H. apply Nat.eqb_eq in H. lia.
Qed.
Lemma exec_silent P s s' tr s'' : step P s None s' -> exec P s' tr s'' -> exec P s tr s''.
Proof. intros H1 H2. exact (exec_cons P s None s' tr s'' H1 H2). Qed.
Lemma exec_event P s e s' tr s'' : step P s (Some e) s' -> exec P s' tr s'' -> exec P s (e :: tr) s''.
Proof. intros H1 H2. exact (exec_cons P s (Some e) s' tr s'' H1 H2). Qed.
Example C54_no_io_ex : ioTableComplete exM exP /\ fresh noAttrs /\ performs exP 0 EIO /\ ~ performs exP 7 EIO.
Proof.
  assert (T : ioTableComplete exM exP).
  { intros f H1 H2. do 8 (destruct f as [|f]; [cbn in *; try discriminate; lia|]). cbn. lia. }
  assert (Fr : fresh noAttrs) by (intros f; repeat split; reflexivity).
  split; [exact T|]. split; [exact Fr|]. split.
  - exists [EIO], [(5, 0); (0, 2)]. split; [|left; reflexivity].
    eapply exec_silent; [apply step_call with (g := 1); reflexivity|].
    eapply exec_silent; [apply step_call with (g := 4); reflexivity|].
    eapply exec_silent; [apply step_ext_ret; reflexivity|].
    eapply exec_silent; [apply step_goto with (t := 3) (ts := [2; 3]); [reflexivity|reflexivity|right; left; reflexivity]|].
    eapply exec_silent; [apply step_ret; reflexivity|].
    eapply exec_silent; [apply step_call with (g := 5); reflexivity|].
    eapply exec_event; [apply step_ext_io; [reflexivity|left; reflexivity]|]. apply exec_nil.
  - apply (C54_no_io exM exP noAttrs exSCCs 7 exFaithful T Fr). reflexivity.
Qed.
Example C54_always_return_ex : let a := runRPO exM noAttrs exSCCs in
  externalsReturn exM exP a /\ fresh a /\ runPO exM a exSCCs AlwaysReturn 7 = true /\ extExit exP 6.
Proof.
  split; [|split; [|split; reflexivity]].
  - intros f H1 [H2|[_ [H2|H2]]] E; cbn in E; subst f; discriminate.
  - intros f. do 8 (destruct f as [|f]; [repeat split; reflexivity|]). repeat split; reflexivity.
Qed.
Example C54_bottomUp_ex : bottomUp exM [[Some 3]; [Some 1; Some 2]; [Some 7]].
Proof.
  intros b S_ a E f Hf.
  assert (R12 : reach exM 1 2) by (eapply reach_step; [|apply reach_refl]; left; reflexivity).
  assert (R21 : reach exM 2 1) by (eapply reach_step; [|apply reach_refl]; left; reflexivity).
  destruct b as [|b0 [|b1 [|b2 [|b3 b]]]]; cbn [app] in E; try discriminate; injection E; intros; subst; cbn in Hf.
  - destruct Hf as [Hf|[]]; injection Hf as <-. split; [intros x [<-|[]]; exists 3; split; [reflexivity|apply reach_refl]|intros g []].
  - destruct Hf as [Hf|[Hf|[]]]; injection Hf as <-.
    + split; [intros x [<-|[<-|[]]]; eexists; (split; [reflexivity|]); [apply reach_refl|exact R12]|].
      intros g [G|[]]; injection G as <-. left. right; left; reflexivity.
    + split; [intros x [<-|[<-|[]]]; eexists; (split; [reflexivity|]); [exact R21|apply reach_refl]|].
      intros g [G|[G|[]]]; injection G as <-; [left; left; reflexivity|right]. exists [Some 3]. split; [left; reflexivity|left; reflexivity].
  - destruct Hf as [Hf|[]]; injection Hf as <-. split; [intros x [<-|[]]; exists 7; split; [reflexivity|apply reach_refl]|].
    intros g [G|[]]; injection G as <-. right. exists [Some 1; Some 2]. split; [right; left; reflexivity|left; reflexivity].
Qed.

(** *** Refutations of termination *)
(** for (;;); : the function is marked but never returns. *)
Definition loopM : module := {|
  mFuncs := [0]; mName := fun _ => "f"; mIntrinsic := fun _ => false; mDbgInfo := fun _ => false; mLib := fun _ => false;
  mDecl := fun f => negb (Nat.eqb f 0); mWillReturn := fun _ => false; mNoReturn := fun _ => false; mNoUnwind := fun _ => false; mReturnsTwice := fun _ => false;
  mEdges := fun f => []; mUsers := fun _ => [] |}.
Definition loopP : program := {| defined := fun f => Nat.eqb f 0; code := fun f pc => match f with 0 => Some (IGoto [0]) | _ => None end;
  extIO := fun _ => False; extExit := fun _ => False; extBack := fun _ => False |}.
Theorem C54_endless_loop_refuted : exists M P SCCs f, faithful M P /\ externalsReturn M P noAttrs /\
  runPO M noAttrs SCCs AlwaysReturn f = true /\ neverReturns P f.
Proof.
  exists loopM, loopP, [[Some 0]], 0. split.
  { constructor; cbn; try tauto; try discriminate.
    - intros f. destruct f; reflexivity.
    - intros [|f] pc g H; discriminate.
    - intros [|f] pc H; discriminate. }
  split; [intros f _ _ []|]. split; [reflexivity|].
  intros tr s H. assert (G : forall s0, exec loopP s0 tr s -> s0 = [(0, 0)] -> s = [(0, 0)]).
  { clear. induction 1 as [s0|s0 o s1 tr s St Ex IH]; intros E; [exact E|]. apply IH. subst s0.
    inversion St; subst; cbn in *; try discriminate; try congruence.
    match goal with E : Some _ = Some _ |- _ => injection E as <- end.
    match goal with E : In _ [0] |- _ => destruct E as [<-|[]] end. reflexivity. }
  rewrite (G _ H eq_refl). discriminate.
Qed.
Print Assumptions C54_endless_loop_refuted.
(** void f() { f(); } *)
Definition recM : module := {|
  mFuncs := [0]; mName := fun _ => "f"; mIntrinsic := fun _ => false; mDbgInfo := fun _ => false; mLib := fun _ => false;
  mDecl := fun f => negb (Nat.eqb f 0); mWillReturn := fun _ => false; mNoReturn := fun _ => false; mNoUnwind := fun _ => false; mReturnsTwice := fun _ => false;
  mEdges := fun f => match f with 0 => [Some 0] | _ => [] end; mUsers := fun f => match f with 0 => [UCall 0 true] | _ => [] end |}.
Definition recP : program := {| defined := fun f => Nat.eqb f 0; code := fun f pc => match f, pc with 0, 0 => Some (ICall 0) | 0, 1 => Some IRet | _, _ => None end;
  extIO := fun _ => False; extExit := fun _ => False; extBack := fun _ => False |}.
Theorem C54_endless_recursion_refuted : exists M P SCCs f, faithful M P /\ externalsReturn M P noAttrs /\
  runPO M noAttrs SCCs AlwaysReturn f = true /\ neverReturns P f.
Proof.
  exists recM, recP, [[Some 0]], 0. split.
  { constructor; cbn; try tauto; try discriminate.
    - intros f. destruct f; reflexivity.
    - intros [|f] [|[|pc]] g H; try discriminate. injection H as <-. left; left; reflexivity.
    - intros [|f] [|[|pc]] H; discriminate. }
  split; [intros f _ _ []|]. split; [reflexivity|].
  intros tr s H. assert (G : forall s0, exec recP s0 tr s -> (exists r, s0 = (0, 0) :: r) -> exists r, s = (0, 0) :: r).
  { clear. induction 1 as [s0|s0 o s1 tr s St Ex IH]; intros [r E]; [exists r; exact E|]. apply IH. subst s0.
    inversion St; subst; cbn in *; try discriminate; try congruence.
    try match goal with E : Some _ = Some _ |- _ => injection E as <- end. eexists; reflexivity. }
  destruct (G _ H (ex_intro _ [] eq_refl)) as [r ->]. discriminate.
Qed.
Print Assumptions C54_endless_recursion_refuted.

(** The list of I/O functions is not complete: functions of POSIX and names, which are used for
    scanf by the GNU library, are missing.  They are known to TargetLibraryInfo. *)
Theorem C54_io_table_refuted : exists M P SCCs f, faithful M P /\ fresh noAttrs /\
  mName M f = "write" /\ runPO M noAttrs SCCs NoIO f = true /\ performs P f EIO /\
  isIOLibFuncName "read" = false /\ isIOLibFuncName "__isoc99_scanf" = false /\ isIOLibFuncName "vsnprintf" = false.
Proof.
  exists {| mFuncs := [0]; mName := fun _ => "write"; mIntrinsic := fun _ => false; mDbgInfo := fun _ => false; mLib := fun _ => true;
    mDecl := fun f => true; mWillReturn := fun _ => false; mNoReturn := fun _ => false; mNoUnwind := fun _ => false; mReturnsTwice := fun _ => false;
    mEdges := fun f => []; mUsers := fun f => [] |}.
  exists {| defined := fun _ => false; code := fun _ _ => None; extIO := fun _ => True; extExit := fun _ => False; extBack := fun _ => False |}.
  exists [[Some 0]], 0. split; [constructor; cbn; try tauto; try discriminate; reflexivity|].
  split; [intros f; repeat split; reflexivity|]. split; [reflexivity|]. split; [reflexivity|]. split; [|repeat split; reflexivity].
  exists [EIO], [(0, 0)]. split; [|left; reflexivity].
  apply (exec_cons _ [(0, 0)] (Some EIO) [(0, 0)] []); [apply step_ext_io; [reflexivity|exact Logic.I]|apply exec_nil].
Qed.
Print Assumptions C54_io_table_refuted.

(** *** Library functions *)
(** Which functions may be called from the library. *)
Inductive fromLibrary (M : module) (SCCs : list (list (option nat))) : nat -> Prop :=
| fl_scc SCC f g : In SCC SCCs -> In (Some f) SCC -> In (Some g) SCC -> mIntrinsic M g = false -> mLib M g = true -> fromLibrary M SCCs f
| fl_call f c b : In (UCall c b) (mUsers M f) -> fromLibrary M SCCs c -> fromLibrary M SCCs f.
Lemma in_sccFuncs M SCC f : In f (sccFuncs M SCC) <-> In (Some f) SCC /\ mIntrinsic M f = false.
Proof.
  unfold sccFuncs. rewrite in_flat_map. split.
  - intros ([x|] & H1 & H2); [|destruct H2]. destruct (mIntrinsic M x) eqn:E; [destruct H2|]. destruct H2 as [<-|[]]. tauto.
  - intros [H1 H2]. exists (Some f). split; [exact H1|]. rewrite H2. left; reflexivity.
Qed.
Theorem C54_libfunc : forall M a SCCs, (forall f, a LibFunc f = false) -> forall f,
  runRPO M a SCCs LibFunc f = true -> fromLibrary M SCCs f.
Proof.
  intros M a SCCs Ha f. unfold runRPO. destruct (addLibSCC_spec M SCCs (addIndirect M a) []) as (b & E & Hb). rewrite E.
  assert (H0 : forall f, b LibFunc f = true -> fromLibrary M SCCs f).
  { intros g H. apply Hb in H. destruct H as [H|(_ & S & HS & Hg & HL)].
    - apply addIndirect_spec in H. destruct H as [H|[H _]]; [rewrite Ha in H; discriminate|discriminate].
    - apply existsb_exists in HL. destruct HL as (l & Hl & HL). apply in_sccFuncs in Hg, Hl.
      apply (fl_scc M SCCs S g l); tauto. }
  revert b Hb H0 E. generalize (rev ([] ++ flat_map (sccFuncs M) SCCs)). intros w b _ H0 _. revert b H0.
  induction w as [|x w IH]; intros b H0; cbn [fold_left]; [apply H0|]. apply IH.
  intros g H. apply topDown_spec in H. destruct H as [H|(_ & -> & H)]; [exact (H0 g H)|].
  apply libUser_spec in H. destruct H as (c & i & H1 & H2). exact (fl_call M SCCs g c i H1 (H0 c H2)).
Qed.
Print Assumptions C54_libfunc.
(** A callee of a marked function is marked if the caller is processed before it.  Missing:
    other orders, see the refutation. *)
Theorem C54_libfunc_callee_partial : forall M a SCCs w1 f w2 c w3 b,
  flat_map (sccFuncs M) SCCs = w1 ++ f :: w2 ++ c :: w3 -> ~ In c (w1 ++ [f]) ->
  In (UCall c b) (mUsers M f) -> runRPO M a SCCs LibFunc c = true -> runRPO M a SCCs LibFunc f = true.
Proof.
  intros M a SCCs w1 f w2 c w3 i Ew Hc HU. unfold runRPO. destruct (addLibSCC_spec M SCCs (addIndirect M a) []) as (b & E & _). rewrite E.
  cbn [app]. rewrite Ew. replace (rev (w1 ++ f :: w2 ++ c :: w3)) with (rev (w2 ++ c :: w3) ++ [f] ++ rev w1).
  2:{ generalize (w2 ++ c :: w3). intros X. rewrite rev_app_distr. cbn [rev]. rewrite <- app_assoc. reflexivity. }
  rewrite !fold_left_app. cbn [fold_left]. set (b' := fold_left _ (rev (w2 ++ c :: w3)) b). intros H.
  rewrite topDown_other in H by (left; intros X; apply in_rev in X; apply Hc; apply in_or_app; left; exact X).
  apply topDown_spec in H.
  assert (Hb' : b' LibFunc c = true).
  { destruct H as [H|(_ & -> & _)]; [exact H|]. destruct Hc. apply in_or_app. right; left; reflexivity. }
  apply topDown_mono, topDown_spec. right. split; [reflexivity|]. split; [reflexivity|].
  apply libUser_spec. exists c, i. tauto.
Qed.
Print Assumptions C54_libfunc_callee_partial.
Example C54_libfunc_ex : map (runRPO exM noAttrs exSCCs LibFunc) [0; 1; 2; 3; 4; 5; 6; 7] = [false; false; false; true; false; true; false; false].
Proof. reflexivity. Qed.
(** qsort (0) calls f (1), f and g (2) call each other.  g is called from the library but
    it is not marked, since f is processed after it. *)
Theorem C54_libfunc_callee_refuted : exists M SCCs f c, bottomUp M SCCs /\ In (UCall c true) (mUsers M f) /\
  runRPO M noAttrs SCCs LibFunc c = true /\ runRPO M noAttrs SCCs LibFunc f = false.
Proof.
  exists {| mFuncs := [0; 1; 2]; mName := fun f => match f with 0 => "qsort" | 1 => "f" | _ => "g" end; mIntrinsic := fun _ => false; mDbgInfo := fun _ => false; mLib := fun f => Nat.eqb f 0;
    mDecl := fun f => false; mWillReturn := fun _ => false; mNoReturn := fun _ => false; mNoUnwind := fun _ => false; mReturnsTwice := fun _ => false;
    mEdges := fun f => match f with 0 => [Some 1] | 1 => [Some 2] | 2 => [Some 1] | _ => [] end;
    mUsers := fun f => match f with 1 => [UCall 0 true; UCall 2 true] | 2 => [UCall 1 true] | _ => [] end |}.
  exists [[Some 1; Some 2]; [Some 0]], 2, 1. split; [|repeat split; try reflexivity; left; reflexivity].
  set (M := mkModule _ _ _ _ _ _ _ _ _ _ _ _).
  intros b S_ a E f Hf.
  assert (R12 : reach M 1 2) by (eapply reach_step; [|apply reach_refl]; left; reflexivity).
  assert (R21 : reach M 2 1) by (eapply reach_step; [|apply reach_refl]; left; reflexivity).
  destruct b as [|b0 [|b1 [|b2 b]]]; cbn [app] in E; try discriminate; injection E; intros; subst; cbn in Hf.
  - destruct Hf as [Hf|[Hf|[]]]; injection Hf as <-.
    + split; [intros x [<-|[<-|[]]]; eexists; (split; [reflexivity|]); [apply reach_refl|exact R12]|].
      intros g [G|[]]; injection G as <-. left. right; left; reflexivity.
    + split; [intros x [<-|[<-|[]]]; eexists; (split; [reflexivity|]); [exact R21|apply reach_refl]|].
      intros g [G|[]]; injection G as <-. left. left; reflexivity.
  - destruct Hf as [Hf|[]]; injection Hf as <-. split; [intros x [<-|[]]; exists 0; split; [reflexivity|apply reach_refl]|].
    intros g [G|[]]; injection G as <-. right. exists [Some 1; Some 2]. split; left; reflexivity.
Qed.
Print Assumptions C54_libfunc_callee_refuted.

(** *** Indirect calls *)
(** uses of a value through casts *)
Inductive leaf : user -> user -> Prop :=
| leaf_call c b : leaf (UCall c b) (UCall c b)
| leaf_other : leaf UOther UOther
| leaf_cast us u v : In u us -> leaf u v -> leaf (UCast us) v.
(** A function is marked if it is used, through casts, by something which is not a call.
    Missing: it may be passed to a call as an argument, see the refutation. *)
Theorem C54_indirect_partial : forall M a SCCs f, (forall f, a IndirectCall f = false) ->
  (runRPO M a SCCs IndirectCall f = true <-> In f (mFuncs M) /\ exists u, In u (mUsers M f) /\ leaf u UOther).
Proof.
  intros M a SCCs f Ha. unfold runRPO. destruct (addLibSCC_spec M SCCs (addIndirect M a) []) as (b & E & Hb). rewrite E.
  rewrite topDown_other by (right; discriminate). rewrite Hb, addIndirect_spec, Ha.
  assert (L : forall u, existsb notCall (collect u) = true <-> leaf u UOther).
  { assert (L1 : forall u v, leaf u v -> v = UOther -> existsb notCall (collect u) = true).
    { induction 1 as [c i| |us u v Hu Hl IH]; intros E1; [discriminate|reflexivity|]. cbn [collect].
      specialize (IH E1). apply existsb_exists in IH. destruct IH as (w & Hw & HN). apply existsb_exists. exists w. split; [|exact HN].
      apply in_flat_map. exists u. split; assumption. }
    assert (L2 : forall u, existsb notCall (collect u) = true -> leaf u UOther).
    { fix IH 1. intros [c i|us|]; cbn [collect].
      - discriminate.
      - intros H. assert (G : exists u, In u us /\ leaf u UOther); [|destruct G as (u & H1 & H2); exact (leaf_cast us u UOther H1 H2)].
        induction us as [|u us IHus]; [discriminate|]. cbn [flat_map] in H. rewrite existsb_app in H. apply orb_true_iff in H. destruct H as [H|H].
        + exists u. split; [left; reflexivity|exact (IH u H)].
        + destruct (IHus H) as (u' & H1 & H2). exists u'. split; [right; exact H1|exact H2].
      - intros _; constructor. }
    intros u. split; [apply L2|intros H; exact (L1 u UOther H eq_refl)]. }
  rewrite existsb_exists. split.
  - intros [[H|(_ & H1 & u & H2 & H3)]|[H _]]; try discriminate. split; [exact H1|]. exists u. split; [exact H2|]. apply L. exact H3.
  - intros (H1 & u & H2 & H3). left. right. split; [reflexivity|]. split; [exact H1|]. exists u. split; [exact H2|]. apply L. exact H3.
Qed.
Print Assumptions C54_indirect_partial.
Example C54_indirect_ex : leaf (UCast [UCall 0 true; UCast [UOther]]) UOther /\ ~ leaf (UCast [UCall 0 true]) UOther.
Proof.
  split.
  - apply (leaf_cast _ (UCast [UOther])); [right; left; reflexivity|]. apply (leaf_cast _ UOther); [left; reflexivity|constructor].
  - intros H. inversion H as [| |us u v Hu Hl]; subst. destruct Hu as [<-|[]]. inversion Hl.
Qed.
(** qsort(a, n, sizeof(int), cmp): cmp is called through a pointer but it is not marked. *)
Theorem C54_indirect_refuted : exists M SCCs f c, In f (mFuncs M) /\ mUsers M f = [UCall c false] /\
  runRPO M noAttrs SCCs IndirectCall f = false.
Proof.
  exists {| mFuncs := [0; 1]; mName := fun f => match f with 0 => "main" | _ => "cmp" end; mIntrinsic := fun _ => false; mDbgInfo := fun _ => false; mLib := fun f => false;
    mDecl := fun f => false; mWillReturn := fun _ => false; mNoReturn := fun _ => false; mNoUnwind := fun _ => false; mReturnsTwice := fun _ => false;
    mEdges := fun f => []; mUsers := fun f => match f with 1 => [UCall 0 false] | _ => [] end |}.
  exists [[Some 1]; [Some 0]], 1, 0. repeat split. right; left; reflexivity.
Qed.
Print Assumptions C54_indirect_refuted.

(** *** Loops *)
(** In a marked loop each call is direct and is free of I/O; it does not stop the program. *)
Lemma visitBlock_spec M a : forall BB st,
  (MayIO (visitBlock M a st BB) = false <-> MayIO st = false /\ forall x, In (Some x) BB -> exists g, x = Some g /\ a NoIO g = true) /\
  (MayNoReturn (visitBlock M a st BB) = false <-> MayNoReturn st = false /\ forall x, In (Some x) BB -> exists g, x = Some g /\ a AlwaysReturn g = true) /\
  (MayUnwind (visitBlock M a st BB) = false <-> MayUnwind st = false /\ forall x, In (Some x) BB -> exists g, x = Some g /\ mNoUnwind M g = true) /\
  (MayReturnsTwice (visitBlock M a st BB) = false <-> MayReturnsTwice st = false /\ forall x, In (Some x) BB -> exists g, x = Some g /\ mReturnsTwice M g = false).
Proof.
  assert (Cons : forall (Q : nat -> Prop) (y : option (option nat)) BB,
    (forall x, In (Some x) (y :: BB) -> exists g, x = Some g /\ Q g) <->
    (match y with Some None => False | Some (Some g) => Q g | None => True end) /\ (forall x, In (Some x) BB -> exists g, x = Some g /\ Q g)).
  { intros Q y BB. split.
    - intros H. split; [|intros x Hx; apply H; right; exact Hx]. destruct y as [[g|]|]; [|destruct (H None (or_introl eq_refl)) as (g & ? & _); discriminate|exact Logic.I].
      destruct (H (Some g) (or_introl eq_refl)) as (g' & Eq & Hq). injection Eq as ->. exact Hq.
    - intros [H1 H2] x [->|Hx]; [|exact (H2 x Hx)]. destruct x as [g|]; [exists g; tauto|destruct H1]. }
  induction BB as [|[[f|]|] BB IH]; intros st; cbn [visitBlock].
  - cbn [In]. repeat split; tauto.
  - rewrite !Cons. destruct (IH (mkLS (MayIO st || negb (a NoIO f)) (MayNoReturn st || negb (a AlwaysReturn f))
      (MayUnwind st || negb (mNoUnwind M f)) (MayReturnsTwice st || mReturnsTwice M f))) as (H1 & H2 & H3 & H4).
    rewrite H1, H2, H3, H4. cbn [MayIO MayNoReturn MayUnwind MayReturnsTwice].
    rewrite !orb_false_iff, !negb_false_iff. tauto.
  - rewrite !Cons. cbn. repeat split; try discriminate; tauto.
  - rewrite !Cons. destruct (IH st) as (H1 & H2 & H3 & H4). tauto.
Qed.
Lemma visitLoop_spec M a bs :
  (MayIO (visitLoop M a bs) = false <-> forall BB x, In BB bs -> In (Some x) BB -> exists g, x = Some g /\ a NoIO g = true) /\
  (MayNoReturn (visitLoop M a bs) = false <-> forall BB x, In BB bs -> In (Some x) BB -> exists g, x = Some g /\ a AlwaysReturn g = true) /\
  (MayUnwind (visitLoop M a bs) = false <-> forall BB x, In BB bs -> In (Some x) BB -> exists g, x = Some g /\ mNoUnwind M g = true) /\
  (MayReturnsTwice (visitLoop M a bs) = false <-> forall BB x, In BB bs -> In (Some x) BB -> exists g, x = Some g /\ mReturnsTwice M g = false).
Proof.
  assert (Cons : forall (Q : option nat -> Prop) BB bs,
    (forall B x, In B (BB :: bs) -> In (Some x) B -> Q x) <-> (forall x, In (Some x) BB -> Q x) /\ (forall B x, In B bs -> In (Some x) B -> Q x)).
  { intros Q BB bs0. split.
    - intros H. split; [intros x Hx; exact (H BB x (or_introl eq_refl) Hx)|intros B x HB Hx; exact (H B x (or_intror HB) Hx)].
    - intros [H1 H2] B x [<-|HB] Hx; [exact (H1 x Hx)|exact (H2 B x HB Hx)]. }
  assert (G : forall bs st,
    (MayIO (fold_left (visitBlock M a) bs st) = false <-> MayIO st = false /\ forall BB x, In BB bs -> In (Some x) BB -> exists g, x = Some g /\ a NoIO g = true) /\
    (MayNoReturn (fold_left (visitBlock M a) bs st) = false <-> MayNoReturn st = false /\ forall BB x, In BB bs -> In (Some x) BB -> exists g, x = Some g /\ a AlwaysReturn g = true) /\
    (MayUnwind (fold_left (visitBlock M a) bs st) = false <-> MayUnwind st = false /\ forall BB x, In BB bs -> In (Some x) BB -> exists g, x = Some g /\ mNoUnwind M g = true) /\
    (MayReturnsTwice (fold_left (visitBlock M a) bs st) = false <-> MayReturnsTwice st = false /\ forall BB x, In BB bs -> In (Some x) BB -> exists g, x = Some g /\ mReturnsTwice M g = false)).
  { clear bs. induction bs as [|BB bs IH]; intros st; cbn [fold_left].
    - cbn [In]. repeat split; tauto.
    - destruct (IH (visitBlock M a st BB)) as (H1 & H2 & H3 & H4). destruct (visitBlock_spec M a BB st) as (V1 & V2 & V3 & V4).
      rewrite H1, H2, H3, H4, V1, V2, V3, V4.
      rewrite (Cons (fun x => exists g, x = Some g /\ a NoIO g = true)), (Cons (fun x => exists g, x = Some g /\ a AlwaysReturn g = true)),
        (Cons (fun x => exists g, x = Some g /\ mNoUnwind M g = true)), (Cons (fun x => exists g, x = Some g /\ mReturnsTwice M g = false)). tauto. }
  unfold visitLoop. destruct (G bs (mkLS false false false false)) as (H1 & H2 & H3 & H4).
  rewrite H1, H2, H3, H4. cbn. tauto.
Qed.
Theorem C54_loop : forall M P a SCCs blocks, faithful M P -> fresh a ->
  let b := runPO M a SCCs in
  (ioTableComplete M P -> loopNoIO M b blocks = true ->
     forall BB x, In BB blocks -> In (Some x) BB -> exists g, x = Some g /\ ~ performs P g EIO) /\
  (externalsReturn M P a -> loopAlwaysReturn M b blocks = true ->
     forall BB x, In BB blocks -> In (Some x) BB -> exists g, x = Some g /\ ~ performs P g EExit) /\
  (loopNoUnwind M b blocks = true <->
     forall BB x, In BB blocks -> In (Some x) BB -> exists g, x = Some g /\ mNoUnwind M g = true) /\
  (loopReturnsTwice M b blocks = false <->
     forall BB x, In BB blocks -> In (Some x) BB -> exists g, x = Some g /\ mReturnsTwice M g = false).
Proof.
  intros M P a SCCs blocks F Ha b. destruct (visitLoop_spec M b blocks) as (H1 & H2 & H3 & H4).
  unfold loopNoIO, loopAlwaysReturn, loopNoUnwind, loopReturnsTwice. rewrite !negb_true_iff. split; [|split; [|split; [exact H3|exact H4]]].
  - intros T H BB x HB Hx. destruct (proj1 H1 H BB x HB Hx) as (g & -> & Hg). exists g. split; [reflexivity|].
    exact (C54_no_io M P a SCCs g F T Ha Hg).
  - intros T H BB x HB Hx. destruct (proj1 H2 H BB x HB Hx) as (g & -> & Hg). exists g. split; [reflexivity|].
    exact (C54_always_return_partial M P a SCCs g F T Ha Hg).
Qed.
Print Assumptions C54_loop.
Example C54_loop_ex : loopNoIO exM exA [[None; Some (Some 1)]; [Some (Some 3)]] = true /\ loopNoIO exM exA [[Some (Some 1); Some (Some 5)]] = false /\
  loopNoUnwind exM exA [[None; Some (Some 3)]] = true /\ loopAlwaysReturn exM exA [[Some None; Some (Some 1)]; [Some (Some 1)]] = false.
Proof. repeat split; reflexivity. Qed.
