(** C58: a loop which is reported as canonical runs as it is described;
    C59: a head of a for-loop with a constant step leads to the bound. *)
From Coq Require Import ZArith List Bool Lia.
From Verif Require Import CanonModel CanonSpec CanonProof.
Import ListNotations.
Local Open Scope Z_scope.

(** * C58 *)
(** For each meaning of instructions and calls, each for-loop in SSA form, if other analyses
    are right: the induction variable is the left operand of the condition, and steps and
    bounds do not depend on phi nodes. *)
Theorem C58_runs_as_described_partial :
  forall w otherOp pureOp globalAddr argVal callSem C covers L ivar ph latch init cmp incr fuel r traits,
  treeRight C covers -> callsRight callSem C covers -> ssa C L -> forLoop C L ivar ph latch init cmp incr ->
  lTraits L = Some traits -> checkLoop C fuel L = Info r -> rCanonical r = true ->
  noPhi C incr -> noPhi C cmp ->
  (exists c d, args C cmp = [c; d] /\ readsInduction C L ivar c) ->
  runsAs w otherOp pureOp globalAddr argVal callSem C covers L ivar ph latch cmp traits r.
Proof. intros. eapply runs_as; eauto. Qed.
Print Assumptions C58_runs_as_described_partial.

(** If a loop is reported as rectangular then the start, the end and the step have the same
    values in all iterations of the parent loop (a set of instructions, executed in any order). *)
Theorem C58_rectangular_partial :
  forall w otherOp pureOp globalAddr argVal callSem C covers L ivar ph latch init cmp incr fuel r,
  callsRight callSem C covers -> ssa C L -> forLoop C L ivar ph latch init cmp incr ->
  checkLoop C fuel L = Info r -> rCanonical r = true -> rRectangular r = true ->
  noPhi C init -> noPhi C incr -> noPhi C cmp ->
  exists ptraits start end_ e negated,
    lParent L = Some (Some ptraits) /\ rStart r = Some start /\ rEnd r = Some end_ /\ rStep r = Some (e, negated) /\
    forall parent p0 done1 s1 done2 s2 v,
      (forall x, parent x \/ ~ parent x) -> operandsRight C parent ->
      reach w otherOp pureOp globalAddr argVal callSem C covers parent ptraits p0 done1 s1 ->
      reach w otherOp pureOp globalAddr argVal callSem C covers parent ptraits p0 done2 s2 ->
      In v [start; end_; e] -> evaluated parent done1 v -> evaluated parent done2 v ->
      ev globalAddr argVal s1 v = ev globalAddr argVal s2 v.
Proof.
  intros w otherOp pureOp globalAddr argVal callSem C covers L ivar ph latch init cmp incr fuel r calls HS HF H Hr Hrect N1 N2 N3.
  destruct (reported C L ivar ph latch init cmp incr HF fuel r H Hr) as (traits & start & end_ & e & ng & b & v & H1 & H2 & H3 & H4 & Ia & Ja & AB & _ & _ & _ & _ & (p & c & d & Co & Ca & Cr) & R).
  destruct (R Hrect) as (ptr & P1 & P2 & P3 & P4).
  exists ptr, start, end_, e, ng. split; [exact P1|]. split; [exact H2|]. split; [exact H3|]. split; [exact H4|].
  intros parent p0 done1 s1 done2 s2 u DEC OR R1 R2 Hu E1 E2.
  assert (A : accepted C ptr u /\ noPhiV C u).
  { destruct Hu as [<-|[<-|[<-|[]]]]; (split; [assumption|]).
    - apply (noPhiV_arg C L HS init); [exact N1|rewrite Ia; cbn; auto].
    - apply (noPhiV_arg C L HS cmp); [exact N3|]. rewrite Ca. destruct Cr as [(_ & -> & _)|(_ & -> & _)]; cbn; auto.
    - destruct (advBy_op _ _ _ _ _ _ _ AB) as (_ & Bin & _). apply (noPhiV_arg C L HS b); [|exact Bin].
      assert (exists z, v = VUser z) as [z ->] by (inversion AB; eauto).
      intros q Hq. apply N2. eapply n_arg; [rewrite Ja; now left|]. eapply needs_trans; [eapply advBy_needs; eauto|exact Hq]. }
  destruct A as [A1 A2].
  exact (reach_uniq w otherOp pureOp globalAddr argVal callSem C covers calls parent ptr p0 DEC OR u done1 s1 done2 s2 A1 A2 R1 E1 R2 E2).
Qed.
Print Assumptions C58_rectangular_partial.

(** The check ends if there are no cycles through operands. *)
Lemma ilm_fuel C traits (rank : nat -> nat) : (forall x y, In (VUser y) (args C x) -> (rank y < rank x)%nat) ->
  forall f x, (rank x < f)%nat -> isLoopInvariantMemory C traits f x <> INoFuel.
Proof.
  intros HR. induction f as [|f IH]; intros x Hx; [lia|]. cbn [isLoopInvariantMemory].
  destruct (fold_left _ _ _) as [| |u d idxs]; [discriminate..|].
  assert (G : forall os, (forall y, In (VUser y) os -> (rank y < f)%nat) -> forall k t n, opsLoop x idxs (isLoopInvariantMemory C traits f) k os t n <> OpNoFuel).
  { induction os as [|o os IHo]; intros Hos k t n; cbn [opsLoop]; [discriminate|].
    assert (Hos' : forall y, In (VUser y) os -> (rank y < f)%nat) by (intros y Hy; apply Hos; now right).
    destruct o as [y|z|g|a]; cbn [opStep]; [| | |discriminate].
    - pose proof (IH y (Hos y (or_introl eq_refl))) as N. destruct (isLoopInvariantMemory C traits f y) as [| |T]; [discriminate|congruence|].
      destruct (tRes T); [now apply IHo|discriminate].
    - destruct (negb _); now apply IHo.
    - destruct (negb _); now apply IHo. }
  specialize (G (iArgs (cInst C x))).
  destruct (opsLoop _ _ _ _ _ _ _) eqn:E; try discriminate. exfalso. eapply G; [|exact E].
  intros y Hy. specialize (HR x y Hy). lia.
Qed.
Theorem C58_ends : forall C L (rank : nat -> nat) bound fuel,
  (forall x y, In (VUser y) (args C x) -> (rank y < rank x)%nat) -> (forall x, (rank x <= bound)%nat) -> (bound < fuel)%nat ->
  checkLoop C fuel L <> NoFuel.
Proof.
  intros C L rank bound fuel HR HB HF. unfold checkLoop.
  assert (G : forall tr x, isLoopInvariantMemory C tr fuel x <> INoFuel) by (intros; eapply ilm_fuel; eauto; specialize (HB x); lia).
  destruct (lPreheader L); [|discriminate]. destruct (findLastWrite _ _); [|discriminate]. destruct (findLastCmp _ _); [|discriminate].
  destruct (findIncrement _ _ _ _) as [o|]; [|discriminate]. destruct (lTraits L) as [tr|]; [|discriminate].
  match goal with |- context[isLoopInvariantMemory C tr fuel ?x] => pose proof (G tr x) as N; destruct (isLoopInvariantMemory C tr fuel x) end; [discriminate|congruence|].
  destruct (negb _ || _ || _); [discriminate|]. destruct o as [i|]; [|discriminate].
  pose proof (G tr i) as N1. destruct (isLoopInvariantMemory C tr fuel i); [discriminate|congruence|].
  destruct (negb _ || _ || _); [discriminate|]. destruct (stepOf _ _); [|discriminate].
  match goal with |- context[isLoopInvariantMemory C tr fuel ?x] => pose proof (G tr x) as N2; destruct (isLoopInvariantMemory C tr fuel x) end; [discriminate|congruence|].
  destruct (negb _ || _ || _); [discriminate|]. destruct (lParent L) as [[ptr|]|]; [|discriminate..].
  unfold rectangular.
  match goal with |- context[match isLoopInvariantMemory C ptr fuel ?x with _ => _ end] => pose proof (G ptr x) as N3; destruct (isLoopInvariantMemory C ptr fuel x) end; [discriminate|congruence|].
  destruct (tRes _); [|discriminate].
  pose proof (G ptr i) as N4. destruct (isLoopInvariantMemory C ptr fuel i); [discriminate|congruence|].
  destruct (tRes _); [|discriminate].
  match goal with |- context[match isLoopInvariantMemory C ptr fuel ?x with _ => _ end] => pose proof (G ptr x) as N5; destruct (isLoopInvariantMemory C ptr fuel x) end; [discriminate|congruence|discriminate].
Qed.
Print Assumptions C58_ends.

(** ** Examples *)
(** Instructions 0 and 1 are allocas of the induction variable i (node 1, address 100) and of
    a variable n (node 2, address 200), which is not changed in the loop. *)
Definition dimOf (l : list inst) (x idx : nat) : option nat :=
  match nth_error l x with
  | Some i => match nth_error (iArgs i) idx with Some (VUser 0) => Some 1%nat | Some (VUser 1) => Some 2%nat | _ => None end
  | None => None
  end.
Definition mk (l : list inst) : ctx :=
  mkCtx (fun x => nth x l (mkInst OBranch [])) (fun _ => []) (fun _ => false) (dimOf l) (fun _ => None) (fun a b => negb (Nat.eqb a b)) 1.
Definition exCovers (n : nat) (a : Z) : Prop := n = 1%nat /\ a = 100 \/ n = 2%nat /\ a = 200.
Definition exTraits (n : nat) : option bool := match n with 1%nat => Some false | 2%nat => Some true | _ => None end.
Definition noCalls : nat -> list Z -> (Z -> Z) -> (Z -> Z) -> Z -> Prop := fun _ _ _ _ _ => False.
Lemma mk_tree l : treeRight (mk l) exCovers.
Proof. intros n m a H [[-> ->]|[-> ->]] [[-> E]|[-> E]]; cbn in H; try discriminate; lia. Qed.
Lemma mk_calls l : callsRight noCalls (mk l) exCovers.
Proof. split; [intros x f vs m m' z a _ []|intros x f vs m1 m1' z1 m2 m2' z2 _ _ []]. Qed.
Notation alloca := (mkInst OAlloca [VConst 1]).
(** for (i = start; ...; i = i + step), instructions of the condition are 10, 11, 12 and
    instructions of the step are 20, 21, 22, 23 *)
Definition exProg (c10 c11 c12 i20 i21 i22 i23 : inst) : list inst :=
  [alloca; alloca; mkInst OStore [VConst 1; VUser 0]; mkInst OBranch []; mkInst OBranch []; mkInst OBranch []; mkInst OBranch []; mkInst OBranch []; mkInst OBranch []; mkInst OBranch [];
   c10; c11; c12; mkInst OBranch [VUser 12]; mkInst OBranch []; mkInst OBranch []; mkInst OBranch []; mkInst OBranch []; mkInst OBranch []; mkInst OBranch [];
   i20; i21; i22; i23].
Definition exLoop (parent : option (option (nat -> option bool))) : loop :=
  mkLoop [1%nat; 2%nat; 3%nat]
    (fun b => match b with 0%nat => [2%nat; 3%nat] | 1%nat => [10%nat; 11%nat; 12%nat; 13%nat] | 2%nat => [20%nat; 21%nat; 22%nat; 23%nat] | 3%nat => [14%nat; 15%nat] | _ => [] end)
    1 (Some 2%nat) (Some 0%nat) (Some exTraits) parent.
Lemma defined_app C L xs ys : definedBefore C L xs -> definedBefore C L ys -> definedBefore C L (xs ++ ys).
Proof.
  intros Dx Dy pre x post E Np y Hy Hl.
  assert (K : forall xs ys : list nat, xs ++ ys = pre ++ x :: post -> (exists q, xs = pre ++ x :: q) \/ exists pre', pre = xs ++ pre' /\ ys = pre' ++ x :: post).
  { clear. revert pre. intros pre xs. revert pre. induction xs as [|a xs IH]; intros pre ys E; [right; exists pre; auto|].
    destruct pre as [|b pre]; cbn [app] in E; injection E as -> E; [left; exists xs; reflexivity|].
    destruct (IH pre ys E) as [(q & ->)|(pre' & -> & ->)]; [left; exists q; reflexivity|right; exists pre'; auto]. }
  destruct (K xs ys E) as [(q & ->)|(pre' & -> & ->)]; [eapply Dx; eauto|]. apply in_or_app. right. eapply Dy; eauto.
Qed.
Definition localCode (C : ctx) (xs : list nat) : bool :=
  (fix go (before xs : list nat) : bool :=
     match xs with
     | [] => true
     | x :: xs => forallb (fun v => match v with VUser y => (y <? 2)%nat || existsb (Nat.eqb y) before | _ => true end) (args C x) && go (x :: before) xs
     end) [] xs.
Lemma local_defined C p xs : localCode C xs = true -> definedBefore C (exLoop p) xs.
Proof.
  unfold localCode.
  assert (G : forall xs before, (fix go (before xs : list nat) : bool :=
     match xs with
     | [] => true
     | x :: xs => forallb (fun v => match v with VUser y => (y <? 2)%nat || existsb (Nat.eqb y) before | _ => true end) (args C x) && go (x :: before) xs
     end) before xs = true -> forall pre x post y, xs = pre ++ x :: post -> In (VUser y) (args C x) -> (y < 2)%nat \/ In y before \/ In y pre).
  { clear xs. induction xs as [|a xs IH]; intros before H pre x post y E Hy; [destruct pre; discriminate|].
    apply andb_true_iff in H. destruct H as [H1 H2]. destruct pre as [|b pre]; cbn [app] in E; injection E as -> E.
    - rewrite forallb_forall in H1. specialize (H1 _ Hy). cbv beta iota in H1. apply orb_true_iff in H1. destruct H1 as [H1|H1].
      + left. now apply Nat.ltb_lt.
      + right. left. apply existsb_exists in H1. destruct H1 as (q & Q1 & Q2). apply Nat.eqb_eq in Q2. now subst.
    - subst xs. destruct (IH _ H2 pre x post y eq_refl Hy) as [K|[[->|K]|K]]; cbn [In]; auto. }
  intros H pre x post E Np y Hy Hl. destruct (G xs [] H pre x post y E Hy) as [K|[[]|K]]; [|exact K].
  exfalso. destruct Hl as (b & B1 & B2). cbn [exLoop lBlocks lCode] in *.
  destruct B1 as [<-|[<-|[<-|[]]]]; cbn [In] in B2; lia.
Qed.
Lemma ex_ssa p c10 c11 c12 i20 i21 i22 i23 : let C := mk (exProg c10 c11 c12 i20 i21 i22 i23) in
  localCode C [10%nat; 11%nat; 12%nat; 13%nat] = true -> localCode C [20%nat; 21%nat; 22%nat; 23%nat] = true ->
  (forall x, In x [10; 11; 12; 20; 21; 22; 23]%nat -> op C x <> OAlloca /\ op C x <> OConstExpr) ->
  (forall x y, In (VUser y) (args C x) -> op C y <> OStore /\ op C y <> OBranch) -> ssa C (exLoop p).
Proof.
  intros C H1 H2 H3 H4.
  assert (LB : forall b, definedBefore C (exLoop p) (lCode (exLoop p) b)).
  { intros b. apply local_defined. do 4 (destruct b as [|b]; [first [assumption|reflexivity]|]). reflexivity. }
  assert (IN : forall x, inLoop (exLoop p) x -> In x [10; 11; 12; 13; 20; 21; 22; 23; 14; 15]%nat).
  { intros x (b & B1 & B2). cbn [exLoop lBlocks lCode] in *. destruct B1 as [<-|[<-|[<-|[]]]]; cbn [In] in *; tauto. }
  split; [|split; [apply LB|split; [split; [|split; [|exact H4]]|split]]].
  - intros latch bs _ _. unfold along. generalize (lHeader (exLoop p) :: bs). induction l as [|b l IH]; cbn [flat_map].
    + intros pre x post E. destruct pre; discriminate.
    + apply defined_app; [apply LB|exact IH].
  - intros x Hx. apply IN in Hx. destruct (in_dec Nat.eq_dec x [10; 11; 12; 20; 21; 22; 23]%nat) as [K|K]; [now apply H3|].
    cbn [In] in *. destruct Hx as [<-|[<-|[<-|[<-|[<-|[<-|[<-|[<-|[<-|[<-|[]]]]]]]]]]]; try (exfalso; tauto); discriminate.
  - intros x E Hx. apply IN in Hx. destruct (in_dec Nat.eq_dec x [10; 11; 12; 20; 21; 22; 23]%nat) as [K|K]; [now apply (H3 x K)|].
    cbn [In] in *. destruct Hx as [<-|[<-|[<-|[<-|[<-|[<-|[<-|[<-|[<-|[<-|[]]]]]]]]]]]; try (exfalso; tauto); discriminate.
  - intros b [<-|[<-|[<-|[]]]]; cbn; repeat constructor; cbn; lia.
  - intros b b' x B B' X X'. cbn [exLoop lBlocks lCode] in *.
    destruct B as [<-|[<-|[<-|[]]]], B' as [<-|[<-|[<-|[]]]]; auto; exfalso; cbn [In] in X, X'; lia.
Qed.
Notation loadI := (mkInst OLoad [VUser 0]).
Notation loadN := (mkInst OLoad [VUser 1]).
(** i < n, i = i + 2 *)
Definition exA : list inst :=
  exProg loadI loadN (mkInst (OCmp PSlt) [VUser 10; VUser 11]) loadI (mkInst (OBin BAdd) [VUser 20; VConst 2]) (mkInst OStore [VUser 21; VUser 0]) (mkInst OBranch []).
(** n > i, i = i + 2 *)
Definition exR : list inst :=
  exProg loadN loadI (mkInst (OCmp PSgt) [VUser 10; VUser 11]) loadI (mkInst (OBin BAdd) [VUser 20; VConst 2]) (mkInst OStore [VUser 21; VUser 0]) (mkInst OBranch []).
Ltac userArgs := intros x y Hy; do 24 (destruct x as [|x]; [unfold args, mk in Hy; cbn in Hy; repeat (destruct Hy as [Hy|Hy]; [first [discriminate Hy|injection Hy as <-; split; discriminate]|]); now destruct Hy|]); unfold args, mk in Hy; destruct x; destruct Hy.
Lemma exIn p b x : In b [1%nat; 2%nat; 3%nat] -> In x (lCode (exLoop p) b) -> inLoop (exLoop p) x.
Proof. intros H1 H2. exists b. auto. Qed.
Lemma exA_ssa p : ssa (mk exA) (exLoop p).
Proof.
  apply ex_ssa; [reflexivity..| |userArgs].
  intros x Hx. cbn [In] in Hx. intuition (subst; discriminate).
Qed.
Lemma exR_ssa p : ssa (mk exR) (exLoop p).
Proof.
  apply ex_ssa; [reflexivity..| |userArgs].
  intros x Hx. cbn [In] in Hx. intuition (subst; discriminate).
Qed.
Ltac nodeKnown := intros x idx [(Ho & Ha & ->)|(Ho & (v & Ha) & ->)]; do 24 (destruct x as [|x]; [first [discriminate Ho|discriminate Ha|exists 1%nat; repeat split; reflexivity]|]); destruct x; discriminate.
Lemma exA_for p : forLoop (mk exA) (exLoop p) (VUser 0) 0 2 2 12 22.
Proof.
  constructor; try reflexivity.
  - now left.
  - right. now left.
  - discriminate.
  - split; [reflexivity|]. now exists (VConst 1).
  - exists [], [3%nat]. split; [reflexivity|]. intros x [<-|[]]. split; [reflexivity|]. cbn. intuition discriminate.
  - exists PSlt, (VUser 10), (VUser 11). split; [reflexivity|]. split; [reflexivity|]. left. constructor; [reflexivity..|]. apply (exIn p 1); cbn; auto.
  - exists [10%nat; 11%nat], [13%nat]. split; [reflexivity|]. intros x q [<-|[]]. discriminate.
  - split; [reflexivity|]. split; [cbn; auto|]. exists (VUser 21). split; [reflexivity|].
    eapply ad_left with (v := VUser 20) (e := VConst 2); [left; reflexivity|reflexivity| |apply (exIn p 2); cbn; auto].
    constructor; [reflexivity..|]. apply (exIn p 2); cbn; auto.
  - split; [reflexivity|]. cbn. intuition discriminate.
  - nodeKnown.
Qed.
Lemma exR_for p : forLoop (mk exR) (exLoop p) (VUser 0) 0 2 2 12 22.
Proof.
  constructor; try reflexivity.
  - now left.
  - right. now left.
  - discriminate.
  - split; [reflexivity|]. now exists (VConst 1).
  - exists [], [3%nat]. split; [reflexivity|]. intros x [<-|[]]. split; [reflexivity|]. cbn. intuition discriminate.
  - exists PSgt, (VUser 10), (VUser 11). split; [reflexivity|]. split; [reflexivity|]. right. constructor; [reflexivity..|]. apply (exIn p 1); cbn; auto.
  - exists [10%nat; 11%nat], [13%nat]. split; [reflexivity|]. intros x q [<-|[]]. discriminate.
  - split; [reflexivity|]. split; [cbn; auto|]. exists (VUser 21). split; [reflexivity|].
    eapply ad_left with (v := VUser 20) (e := VConst 2); [left; reflexivity|reflexivity| |apply (exIn p 2); cbn; auto].
    constructor; [reflexivity..|]. apply (exIn p 2); cbn; auto.
  - split; [reflexivity|]. cbn. intuition discriminate.
  - nodeKnown.
Qed.
Definition noPhiB (l : list inst) : bool := forallb (fun i => match iOp i with OPhi => false | _ => true end) l.
Lemma noPhi_all l x : noPhiB l = true -> noPhi (mk l) x.
Proof.
  intros H y _ E. unfold noPhiB in H. rewrite forallb_forall in H. unfold op in E. cbn [mk cInst] in E.
  destruct (nth_in_or_default y l (mkInst OBranch [])) as [K|K]; [specialize (H _ K); now rewrite E in H|rewrite K in E; discriminate].
Qed.
(** An execution: instructions of these programs are deterministic *)
Definition set (s : state) (x : nat) (z : Z) : state := mkState (fun y => if Nat.eqb y x then z else regs s y) (mem s).
Definition runInst (l : list inst) (s : state) (x : nat) : state :=
  let e := ev (fun _ => 0) (fun _ => 0) s in
  match nth x l (mkInst OBranch []) with
  | mkInst OLoad [p] => set s x (mem s (e p))
  | mkInst OStore [v; p] => mkState (regs s) (fun a => if a =? e p then e v else mem s a)
  | mkInst OPhi (v :: _) => set s x (e v)
  | mkInst o vs => match compute 32 (fun _ _ _ => 0) (fun _ _ => 0) o (map e vs) with Some z => set s x z | None => s end
  end.
Definition entry (n : Z) : state := mkState (fun x => match x with 0%nat => 100 | 1%nat => 200 | _ => 0 end) (fun a => if a =? 200 then n else 0).
Notation exExec := (exec 32 (fun _ _ _ => 0) (fun _ _ => 0) (fun _ => 0) (fun _ => 0) noCalls).
Definition aligned (s : state) : Prop := regs s 0%nat = 100 /\ regs s 1%nat = 200.
(** what is required from instructions to execute them *)
Definition okInst (C : ctx) (x : nat) : bool :=
  negb (x <? 2)%nat &&
  match iOp (cInst C x), iArgs (cInst C x) with
  | OLoad, [VUser y] => (y <? 2)%nat
  | OStore, [_; VUser 0] => true
  | OBin BAdd, [_; _] | OBin BSub, [_; _] | OCmp _, [_; _] | OBranch, _ => true
  | OPhi, _ :: _ => true
  | _, _ => false
  end.
Lemma run_step l tr s x : okInst (mk l) x = true -> aligned s -> (tr = exTraits \/ tr = fun _ => Some false) ->
  lstep 32 (fun _ _ _ => 0) (fun _ _ => 0) (fun _ => 0) (fun _ => 0) noCalls (mk l) exCovers tr s x (runInst l s x) /\ aligned (runInst l s x).
Proof.
  unfold okInst. intros H (A0 & A1) Htr. apply andb_true_iff in H. destruct H as [Hx H]. apply negb_true_iff, Nat.ltb_ge in Hx.
  cbn [mk cInst] in H. unfold runInst.
  assert (RS : forall z, result s (set s x z) x z).
  { intros z. split; [cbn; now rewrite Nat.eqb_refl|]. intros y Hy. cbn. destruct (Nat.eqb_spec y x); [contradiction|reflexivity]. }
  assert (AS : forall z, aligned (set s x z)).
  { intros z. unfold aligned, set. cbn [regs]. destruct (Nat.eqb_spec 0 x) as [E|E]; [lia|]. destruct (Nat.eqb_spec 1 x) as [E1|E1]; [lia|]. now split. }
  assert (TR0 : forall s', (forall a, mem s' a = mem s a) -> traitsRight exCovers tr s s') by (intros s' Hs n a _ _; apply Hs).
  destruct (nth x l (mkInst OBranch [])) as [o vs] eqn:E. cbn [iOp iArgs] in H.
  assert (EO : op (mk l) x = o) by (unfold op; cbn [mk cInst]; now rewrite E).
  assert (EA : args (mk l) x = vs) by (unfold args; cbn [mk cInst]; now rewrite E).
  assert (AL : o <> OLoad -> o <> OStore -> aliasRight (fun _ => 0) (fun _ => 0) (mk l) exCovers s x).
  { intros N1 N2. unfold aliasRight. rewrite EO. destruct o; auto; contradiction. }
  destruct o as [| |b|p| |k| | | | |f]; try discriminate.
  - destruct vs as [|v [|? ?]]; try discriminate; try (destruct v; discriminate). destruct v as [y|?|?|?]; try discriminate.
    split; [|apply AS]. split; [|split; [|now apply TR0]].
    + eapply st_load; [exact EO|exact EA|apply RS|reflexivity].
    + unfold aliasRight. rewrite EO, EA. cbn [mk cDim]. unfold dimOf. destruct (nth_error l x) eqn:En; [|exact I].
      rewrite (nth_error_nth _ _ _ En) in E. subst i. cbn [iArgs nth_error]. apply Nat.ltb_lt in H.
      destruct y as [|[|y]]; [left; split; [reflexivity|exact A0]|right; split; [reflexivity|exact A1]|lia].
  - destruct vs as [|v [|q [|? ?]]]; try discriminate; try (destruct q as [[|?]|?|?|?]; discriminate). destruct q as [[|y]|?|?|?]; try discriminate.
    split; [|split; assumption]. split; [|split].
    + eapply st_store; [exact EO|exact EA|reflexivity|cbn [mem]; now rewrite Z.eqb_refl|].
      intros a Ha. cbn [mem]. destruct (Z.eqb_spec a (ev (fun _ => 0) (fun _ => 0) s (VUser 0))); [contradiction|reflexivity].
    + unfold aliasRight. rewrite EO, EA. cbn [mk cDim]. unfold dimOf. destruct (nth_error l x) eqn:En; [|exact I].
      rewrite (nth_error_nth _ _ _ En) in E. subst i. cbn [iArgs nth_error]. left; split; [reflexivity|exact A0].
    + intros n a Hk Hc. cbn [mem ev]. rewrite A0. destruct (Z.eqb_spec a 100) as [->|]; [|reflexivity].
      exfalso. destruct Hc as [[-> _]|[_ Ec]]; [|lia]. destruct Htr as [->| ->]; destruct Hk as [Hk|Hk]; discriminate.
  - destruct b; destruct vs as [|v1 [|v2 [|? ?]]]; try discriminate; cbn [map compute];
      (split; [|apply AS]; split; [|split; [apply AL; discriminate|now apply TR0]]; eapply st_compute; [rewrite EO, EA; cbn [map compute]; reflexivity|apply RS|reflexivity]).
  - destruct vs as [|v1 [|v2 [|? ?]]]; try discriminate. cbn [map compute].
    split; [|apply AS]. split; [|split; [apply AL; discriminate|now apply TR0]]. eapply st_compute; [rewrite EO, EA; cbn [map compute]; reflexivity|apply RS|reflexivity].
  - destruct vs as [|v vs]; [discriminate|]. split; [|apply AS]. split; [|split; [apply AL; discriminate|now apply TR0]].
    eapply st_phi; [exact EO|rewrite EA; now left|apply RS|reflexivity].
  - cbn [compute]. split; [|split; assumption]. split; [|split; [apply AL; discriminate|now apply TR0]].
    apply st_branch; auto.
Qed.
Definition runAll (l : list inst) (xs : list nat) (s : state) : state := fold_left (runInst l) xs s.
Lemma run_exec l tr xs : (tr = exTraits \/ tr = fun _ => Some false) -> forallb (okInst (mk l)) xs = true -> forall s, aligned s ->
  exExec (mk l) exCovers tr xs s (runAll l xs s) /\ aligned (runAll l xs s).
Proof.
  intros Ht. induction xs as [|x xs IH]; intros H s A; [split; [constructor|exact A]|].
  apply andb_true_iff in H. destruct H as [H1 H2]. destruct (run_step l tr s x H1 A Ht) as [S1 S2].
  destruct (IH H2 _ S2) as [E1 E2]. split; [econstructor; eauto|exact E2].
Qed.
(** A loop which meets all premises, two iterations of it *)
Example C58_ex : exists r, checkLoop (mk exA) 10 (exLoop (Some (Some exTraits))) = Info r /\ rCanonical r = true /\ rRectangular r = true /\
  runsAs 32 (fun _ _ _ => 0) (fun _ _ => 0) (fun _ => 0) (fun _ => 0) noCalls (mk exA) exCovers (exLoop (Some (Some exTraits))) (VUser 0) 0 2 12 exTraits r /\
  exists before s0 s2, exExec (mk exA) exCovers (fun _ => Some false) (lCode (exLoop (Some (Some exTraits))) 0) before s0 /\
    iterations 32 (fun _ _ _ => 0) (fun _ _ => 0) (fun _ => 0) (fun _ => 0) noCalls (mk exA) exCovers (exLoop (Some (Some exTraits))) exTraits 2 12 s0 2 s2 /\
    mem s0 100 = 1 /\ mem s2 100 = 5.
Proof.
  eexists. split; [vm_compute; reflexivity|]. split; [reflexivity|]. split; [reflexivity|]. split.
  - apply (C58_runs_as_described_partial _ _ _ _ _ _ _ _ _ _ _ _ 2 _ 22 10); auto using mk_tree, mk_calls, exA_ssa, exA_for, noPhi_all.
    exists (VUser 10), (VUser 11). split; [reflexivity|]. constructor; [reflexivity..|]. apply (exIn _ 1); cbn; auto.
  - set (L := exLoop (Some (Some exTraits))).
    destruct (run_exec exA (fun _ => Some false) [2%nat; 3%nat] (or_intror eq_refl) eq_refl (entry 4) ltac:(split; reflexivity)) as [E0 A0].
    set (s0 := runAll exA [2%nat; 3%nat] (entry 4)) in *.
    destruct (run_exec exA exTraits [10%nat; 11%nat; 12%nat; 13%nat] (or_introl eq_refl) eq_refl s0 A0) as [E1 A1].
    set (h0 := runAll exA [10%nat; 11%nat; 12%nat; 13%nat] s0) in *.
    destruct (run_exec exA exTraits [20%nat; 21%nat; 22%nat; 23%nat] (or_introl eq_refl) eq_refl h0 A1) as [E2 A2].
    set (s1 := runAll exA [20%nat; 21%nat; 22%nat; 23%nat] h0) in *.
    destruct (run_exec exA exTraits [10%nat; 11%nat; 12%nat; 13%nat] (or_introl eq_refl) eq_refl s1 A2) as [E3 A3].
    set (h1 := runAll exA [10%nat; 11%nat; 12%nat; 13%nat] s1) in *.
    destruct (run_exec exA exTraits [20%nat; 21%nat; 22%nat; 23%nat] (or_introl eq_refl) eq_refl h1 A3) as [E4 A4].
    set (s2 := runAll exA [20%nat; 21%nat; 22%nat; 23%nat] h1) in *.
    exists (entry 4), s0, s2. split; [exact E0|].
    assert (IB : iterationBlocks L 2 [2%nat]) by (exists []; split; [reflexivity|intros b []]).
    split; [|split; vm_compute; reflexivity].
    eapply it_S with (h := h1) (bs := [2%nat]); [|exact E3|vm_compute; reflexivity|exact IB|exact E4].
    eapply it_S with (h := h0) (bs := [2%nat]); [|exact E1|vm_compute; reflexivity|exact IB|exact E2]. constructor.
Qed.

(** ** Wrong descriptions *)
(** A bound on the left, n > i: the predicate is inverted instead of being swapped.  With n = 1
    and i = 1 the loop is not executed, but i <= n is reported. *)
Theorem C58_reversed_refuted : exists C covers L r,
  treeRight C covers /\ callsRight noCalls C covers /\ ssa C L /\ forLoop C L (VUser 0) 0 2 2 12 22 /\
  lTraits L = Some exTraits /\ (exists fuel, checkLoop C fuel L = Info r) /\ rCanonical r = true /\ noPhi C 22 /\ noPhi C 12 /\
  ~ runsAs 32 (fun _ _ _ => 0) (fun _ _ => 0) (fun _ => 0) (fun _ => 0) noCalls C covers L (VUser 0) 0 2 12 exTraits r.
Proof.
  exists (mk exR), exCovers, (exLoop None), (mkInfo (Some (VConst 1)) (Some (VUser 10)) (Some (VConst 2, false)) (Some PSle) true false true false).
  split; [apply mk_tree|]. split; [apply mk_calls|]. split; [apply exR_ssa|]. split; [apply exR_for|]. split; [reflexivity|].
  split; [exists 10%nat; vm_compute; reflexivity|]. split; [reflexivity|]. split; [now apply noPhi_all|]. split; [now apply noPhi_all|].
  intros (start & end_ & e & ng & p & R1 & R2 & R3 & R4 & R). injection R1 as <-. injection R2 as <-. injection R3 as <- <-. injection R4 as <-.
  destruct (run_exec exR (fun _ => Some false) [2%nat; 3%nat] (or_intror eq_refl) eq_refl (entry 1) ltac:(split; reflexivity)) as [E0 A0].
  set (s0 := runAll exR [2%nat; 3%nat] (entry 1)) in *.
  destruct (run_exec exR exTraits [10%nat; 11%nat; 12%nat; 13%nat] (or_introl eq_refl) eq_refl s0 A0) as [E1 A1].
  destruct (R _ _ E0) as (_ & _ & K & _); [left; split; [reflexivity|apply A0]|].
  specialize (K O s0 _ (it_0 _ _ _ _ _ _ _ _ _ _ _ _ _) E1). vm_compute in K. discriminate.
Qed.
Print Assumptions C58_reversed_refuted.

(** A step which is selected by a condition, i += c ? 1 : 2 (a phi node in the latch): the step
    is not the same in all iterations. *)
Definition exP : list inst :=
  exProg loadI loadN (mkInst (OCmp PSlt) [VUser 10; VUser 11]) (mkInst OPhi [VConst 1; VConst 2]) loadI (mkInst (OBin BAdd) [VUser 21; VUser 20]) (mkInst OStore [VUser 22; VUser 0]).
Lemma exP_for p : forLoop (mk exP) (exLoop p) (VUser 0) 0 2 2 12 23.
Proof.
  constructor; try reflexivity.
  - now left.
  - right. now left.
  - discriminate.
  - split; [reflexivity|]. now exists (VConst 1).
  - exists [], [3%nat]. split; [reflexivity|]. intros x [<-|[]]. split; [reflexivity|]. cbn. intuition discriminate.
  - exists PSlt, (VUser 10), (VUser 11). split; [reflexivity|]. split; [reflexivity|]. left. constructor; [reflexivity..|]. apply (exIn p 1); cbn; auto.
  - exists [10%nat; 11%nat], [13%nat]. split; [reflexivity|]. intros x q [<-|[]]. discriminate.
  - split; [reflexivity|]. split; [cbn; auto|]. exists (VUser 22). split; [reflexivity|].
    eapply ad_left with (v := VUser 21) (e := VUser 20); [left; reflexivity|reflexivity| |apply (exIn p 2); cbn; auto].
    constructor; [reflexivity..|]. apply (exIn p 2); cbn; auto.
  - split; [reflexivity|]. cbn. intuition discriminate.
  - nodeKnown.
Qed.
Theorem C58_phi_refuted : exists C covers L r,
  treeRight C covers /\ callsRight noCalls C covers /\ ssa C L /\ forLoop C L (VUser 0) 0 2 2 12 23 /\
  lTraits L = Some exTraits /\ (exists fuel, checkLoop C fuel L = Info r) /\ rCanonical r = true /\ noPhi C 12 /\
  (exists c d, args C 12 = [c; d] /\ readsInduction C L (VUser 0) c) /\
  ~ runsAs 32 (fun _ _ _ => 0) (fun _ _ => 0) (fun _ => 0) (fun _ => 0) noCalls C covers L (VUser 0) 0 2 12 exTraits r.
Proof.
  exists (mk exP), exCovers, (exLoop None), (mkInfo (Some (VConst 1)) (Some (VUser 11)) (Some (VUser 20, false)) (Some PSlt) true false true false).
  split; [apply mk_tree|]. split; [apply mk_calls|].
  split; [apply ex_ssa; [reflexivity..|intros x Hx; cbn [In] in Hx; intuition (subst; discriminate)|userArgs]|]. split; [apply exP_for|]. split; [reflexivity|].
  split; [exists 10%nat; vm_compute; reflexivity|]. split; [reflexivity|].
  split. { intros y Hy. assert (K : In y [10; 11; 12; 0; 1]%nat).
    { assert (G : forall x, needs (mk exP) x y -> In x [10; 11; 12; 0; 1]%nat -> In y [10; 11; 12; 0; 1]%nat).
      { intros x N. induction N as [x|x z y Hz N IH]; [auto|]. intros Hx. apply IH; [exact Hy|]. cbn [In] in Hx |- *.
        destruct Hx as [<-|[<-|[<-|[<-|[<-|[]]]]]]; unfold args in Hz; cbn in Hz; repeat (destruct Hz as [Hz|Hz]; [first [discriminate Hz|injection Hz as <-; auto 10]|]); now destruct Hz. }
      apply (G 12%nat Hy). cbn; auto. }
    cbn [In] in K. destruct K as [<-|[<-|[<-|[<-|[<-|[]]]]]]; discriminate. }
  split. { exists (VUser 10), (VUser 11). split; [reflexivity|]. constructor; [reflexivity..|]. apply (exIn None 1); cbn; auto. }
  intros (start & end_ & e & ng & p & R1 & R2 & R3 & R4 & R). injection R1 as <-. injection R2 as <-. injection R3 as <- <-. injection R4 as <-.
  destruct (run_exec exP (fun _ => Some false) [2%nat; 3%nat] (or_intror eq_refl) eq_refl (entry 10) ltac:(split; reflexivity)) as [E0 A0].
  set (s0 := runAll exP [2%nat; 3%nat] (entry 10)) in *.
  destruct (run_exec exP exTraits [10%nat; 11%nat; 12%nat; 13%nat] (or_introl eq_refl) eq_refl s0 A0) as [E1 A1].
  set (h0 := runAll exP [10%nat; 11%nat; 12%nat; 13%nat] s0) in *.
  destruct (run_exec exP exTraits [20%nat; 21%nat; 22%nat; 23%nat] (or_introl eq_refl) eq_refl h0 A1) as [E2 A2].
  set (s1 := runAll exP [20%nat; 21%nat; 22%nat; 23%nat] h0) in *.
  destruct (run_exec exP exTraits [10%nat; 11%nat; 12%nat; 13%nat] (or_introl eq_refl) eq_refl s1 A2) as [E3 A3].
  set (h1 := runAll exP [10%nat; 11%nat; 12%nat; 13%nat] s1) in *.
  set (q := set h1 20 2).
  assert (Aq : aligned q) by (destruct A3; split; assumption).
  destruct (run_exec exP exTraits [21%nat; 22%nat; 23%nat] (or_introl eq_refl) eq_refl q Aq) as [E4 A4].
  set (s2 := runAll exP [21%nat; 22%nat; 23%nat] q) in *.
  destruct (R _ _ E0) as (_ & _ & _ & _ & K); [left; split; [reflexivity|apply A0]|].
  assert (IB : iterationBlocks (exLoop None) 2 [2%nat]) by (exists []; split; [reflexivity|intros b []]).
  assert (I1 : iterations 32 (fun _ _ _ => 0) (fun _ _ => 0) (fun _ => 0) (fun _ => 0) noCalls (mk exP) exCovers (exLoop None) exTraits 2 12 s0 1 s1).
  { eapply it_S with (h := h0) (bs := [2%nat]); [constructor|exact E1|vm_compute; reflexivity|exact IB|exact E2]. }
  assert (I2 : iterations 32 (fun _ _ _ => 0) (fun _ _ => 0) (fun _ => 0) (fun _ => 0) noCalls (mk exP) exCovers (exLoop None) exTraits 2 12 s0 2 s2).
  { eapply it_S with (h := h1) (bs := [2%nat]); [exact I1|exact E3|vm_compute; reflexivity|exact IB|].
    change (along (exLoop None) [2%nat]) with [20%nat; 21%nat; 22%nat; 23%nat]. econstructor; [|exact E4].
    split; [|split; [exact I|intros n a _ _; reflexivity]].
    apply st_phi with (v := VConst 2); [reflexivity|cbn; auto| |reflexivity].
    split; [reflexivity|]. intros y Hy. cbn. destruct (Nat.eqb_spec y 20); [contradiction|reflexivity]. }
  specialize (K _ _ _ _ I1 ltac:(lia) I2 ltac:(lia)). vm_compute in K. discriminate.
Qed.
Print Assumptions C58_phi_refuted.

(** A condition which is computed in several blocks, i < (x && y): the last comparison in the
    header does not depend on the induction variable, it is reported as an end value. *)
Definition exM : list inst :=
  exProg loadN (mkInst OBranch []) (mkInst (OCmp PNe) [VUser 10; VConst 0]) loadI (mkInst (OBin BAdd) [VUser 20; VConst 2]) (mkInst OStore [VUser 21; VUser 0]) (mkInst OBranch []).
Theorem C58_condition_refuted : exists C covers L r,
  treeRight C covers /\ callsRight noCalls C covers /\ ssa C L /\ lTraits L = Some exTraits /\
  (exists fuel, checkLoop C fuel L = Info r) /\ rCanonical r = true /\ noPhi C 22 /\ noPhi C 12 /\
  rEnd r = Some (VUser 12) /\
  ~ runsAs 32 (fun _ _ _ => 0) (fun _ _ => 0) (fun _ => 0) (fun _ => 0) noCalls C covers L (VUser 0) 0 2 12 exTraits r.
Proof.
  exists (mk exM), exCovers, (exLoop None), (mkInfo (Some (VConst 1)) (Some (VUser 12)) (Some (VConst 2, false)) (Some PNe) false false true false).
  split; [apply mk_tree|]. split; [apply mk_calls|].
  split; [apply ex_ssa; [reflexivity..|intros x Hx; cbn [In] in Hx; intuition (subst; discriminate)|userArgs]|]. split; [reflexivity|].
  split; [exists 10%nat; vm_compute; reflexivity|]. split; [reflexivity|]. split; [now apply noPhi_all|]. split; [now apply noPhi_all|]. split; [reflexivity|].
  intros (start & end_ & e & ng & p & R1 & R2 & R3 & R4 & R). injection R1 as <-. injection R2 as <-. injection R3 as <- <-. injection R4 as <-.
  destruct (run_exec exM (fun _ => Some false) [2%nat; 3%nat] (or_intror eq_refl) eq_refl (entry 1) ltac:(split; reflexivity)) as [E0 A0].
  set (s0 := runAll exM [2%nat; 3%nat] (entry 1)) in *.
  destruct (run_exec exM exTraits [10%nat; 11%nat; 12%nat; 13%nat] (or_introl eq_refl) eq_refl s0 A0) as [E1 A1].
  destruct (R _ _ E0) as (_ & _ & K & _); [left; split; [reflexivity|apply A0]|].
  specialize (K O s0 _ (it_0 _ _ _ _ _ _ _ _ _ _ _ _ _) E1). vm_compute in K. discriminate.
Qed.
Print Assumptions C58_condition_refuted.

(** A real step, i += 0.5 for an integer i: the check fails (an assertion, Unknown step value). *)
Theorem C58_real_step_refuted : exists C L, ssa C L /\ exists k, iOp (cInst C 21) = OBin (BOther k) /\ forall fuel, (fuel >= 10)%nat -> checkLoop C fuel L = Crash.
Proof.
  exists (mk (exProg loadI loadN (mkInst (OCmp PSlt) [VUser 10; VUser 11]) loadI (mkInst (OBin (BOther 0)) [VUser 20; VConst 0]) (mkInst OStore [VUser 21; VUser 0]) (mkInst OBranch []))), (exLoop None).
  split; [apply ex_ssa; [reflexivity..|intros x Hx; cbn [In] in Hx; intuition (subst; discriminate)|userArgs]|].
  exists 0%nat. split; [reflexivity|]. intros fuel Hf. do 10 (destruct fuel as [|fuel]; [lia|]). vm_compute. reflexivity.
Qed.
Print Assumptions C58_real_step_refuted.

(** A bound which is a phi node of the loop (a promoted variable): the search never ends. *)
Theorem C58_cycle_refuted : exists C L, forall fuel, checkLoop C fuel L = NoFuel.
Proof.
  pose (l := exProg loadI (mkInst OPhi [VConst 1; VUser 21]) (mkInst (OCmp PSlt) [VUser 10; VUser 11]) (mkInst (OBin BAdd) [VUser 11; VConst 1]) (mkInst (OBin BAdd) [VUser 11; VConst 1]) (mkInst OStore [VUser 23; VUser 0]) (mkInst OBranch [])
     ++ [loadI; mkInst (OBin BAdd) [VUser 24; VConst 1]]).
  pose (l' := firstn 23 l ++ [mkInst (OBin BAdd) [VUser 24; VConst 1]; loadI]).
  pose (L := mkLoop [1%nat; 2%nat] (fun b => match b with 0%nat => [2%nat; 3%nat] | 1%nat => [11%nat; 10%nat; 12%nat; 13%nat] | 2%nat => [21%nat; 24%nat; 23%nat; 22%nat] | _ => [] end)
    1 (Some 2%nat) (Some 0%nat) (Some exTraits) None).
  exists (mk l'), L.
  assert (G : forall f, isLoopInvariantMemory (mk l') exTraits f 11 = INoFuel /\ isLoopInvariantMemory (mk l') exTraits f 21 = INoFuel).
  { induction f as [|f [IH1 IH2]]; [split; reflexivity|]. split; cbn [isLoopInvariantMemory].
    - change (accesses (mk l') 11) with (@nil access). cbn [fold_left]. change (iArgs (cInst (mk l') 11)) with [VConst 1; VUser 21].
      cbn [opsLoop opStep existsb negb]. now rewrite IH2.
    - change (accesses (mk l') 21) with (@nil access). cbn [fold_left]. change (iArgs (cInst (mk l') 21)) with [VUser 11; VConst 1].
      cbn [opsLoop opStep existsb negb]. now rewrite IH1. }
  intros fuel. do 4 (destruct fuel as [|fuel]; [vm_compute; reflexivity|]).
  assert (F12 : isLoopInvariantMemory (mk l') exTraits (S (S (S (S fuel)))) 12 = INoFuel).
  { destruct (G (S (S (S fuel)))) as [G1 _]. remember (S (S (S fuel))) as f. cbn [isLoopInvariantMemory].
    change (accesses (mk l') 12) with (@nil access). cbn [fold_left]. change (iArgs (cInst (mk l') 12)) with [VUser 10; VUser 11].
    cbn [opsLoop opStep]. rewrite G1. subst f.
    assert (E10 : exists t, isLoopInvariantMemory (mk l') exTraits (S (S (S fuel))) 10 = ITuple t /\ tRes t = true) by (eexists; split; vm_compute; reflexivity).
    destruct E10 as (t & -> & ->). reflexivity. }
  unfold checkLoop. change (lPreheader L) with (Some 0%nat). cbv iota beta.
  change (findLastWrite (mk l') (lCode L 0)) with (Some 2%nat). change (findLastCmp (mk l') (lCode L (lHeader L))) with (Some 12%nat).
  change (findIncrement (mk l') L (lBlocks L) None) with (Some (Some 22%nat)). change (lTraits L) with (Some exTraits). cbv iota beta.
  assert (E2 : isLoopInvariantMemory (mk l') exTraits (S (S (S (S fuel)))) 2 = ITuple (mkTuple true 0 1 (Some (VConst 1)) (Some 2%nat))) by (vm_compute; reflexivity).
  assert (E22 : isLoopInvariantMemory (mk l') exTraits (S (S (S (S fuel)))) 22 = ITuple (mkTuple true 1 1 (Some (VConst 1)) (Some 23%nat))) by (vm_compute; reflexivity).
  rewrite E2, E22, F12. reflexivity.
Qed.
Print Assumptions C58_cycle_refuted.
