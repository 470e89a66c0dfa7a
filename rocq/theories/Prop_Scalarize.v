(** C57: A loop in which a pointer is promoted to a register computes the same.

    Before dependencies are analyzed, a memory location which is accessed through a pointer
    is replaced with a register inside a loop: it is loaded before the loop and it is stored
    after the loop. *)
From Coq Require Import ZArith List Bool Lia.
From Verif Require Import ScalarizeModel ScalarizeSpec ScalarizeProof.
Import ListNotations.
Local Open Scope Z_scope.

(** *** For each number of steps the transformed loop is in the same block; if it has been
    left, the exit, registers, memory and the final value of the location are the same.
    Missing (refuted below): several blocks of the loop with the same exit, a location which may not
    be accessed, deleted phi nodes which are used after the loop, constants. *)
Theorem C57_promoted_partial : forall C fuel UniqueNodes exits P M n s,
  loopShape C -> oneExiting C -> exitsListed C exits -> ssa C -> branchRight C M ->
  promote C fuel UniqueNodes exits = Done P -> runLoop C M true n s = trunLoop C M P true n s.
Proof. intros C fuel UniqueNodes exits P M n s SH. exact (promoted C SH fuel UniqueNodes exits P M n s). Qed.
Print Assumptions C57_promoted_partial.

(** Loops from lists of blocks: the preheader is 0, the header is 1. *)
Definition blocks := list (nat * list nat * list instr).
Definition entry (l : blocks) (b : nat) : option (nat * list nat * list instr) := find (fun x => Nat.eqb (fst (fst x)) b) l.
Definition succsOf (l : blocks) (b : nat) : list nat :=
  if Nat.eqb b 0 then [1%nat] else match entry l b with Some x => snd (fst x) | None => [] end.
Definition build (l : blocks) : cfg := {|
  inL := fun b => match entry l b with Some _ => true | None => false end;
  preheader := 0; header := 1;
  succs := succsOf l;
  preds := fun b => filter (fun a => existsb (Nat.eqb b) (succsOf l a)) (0%nat :: map (fun x => fst (fst x)) l);
  body := fun b => match entry l b with Some x => snd x | None => [] end |}.
Definition shapeOk (l : blocks) : bool :=
  match entry l 0, entry l 1 with
  | None, Some _ => forallb (fun x => negb (existsb (Nat.eqb 0) (snd (fst x)))) l
  | _, _ => false
  end.
Lemma entry_in l b x : entry l b = Some x -> In x l /\ fst (fst x) = b.
Proof. intros H. apply find_some in H. destruct H as [H1 H2]. apply Nat.eqb_eq in H2. auto. Qed.
Lemma build_shape l : shapeOk l = true -> loopShape (build l).
Proof.
  unfold shapeOk. intros H. destruct (entry l 0) eqn:E0; [discriminate|]. destruct (entry l 1) eqn:E1; [|discriminate].
  rewrite forallb_forall in H.
  assert (Hs : forall a b, In b (succsOf l a) -> a = 0%nat \/ exists x, entry l a = Some x).
  { intros a b. unfold succsOf. destruct (Nat.eqb_spec a 0); [auto|]. destruct (entry l a) as [x|]; [|intros []]. right. exists x. reflexivity. }
  split; cbn [build inL preheader header succs preds].
  - rewrite E0. reflexivity.
  - rewrite E1. reflexivity.
  - reflexivity.
  - intros a b _. rewrite filter_In, existsb_exists. split.
    + intros (_ & y & Hy & E). apply Nat.eqb_eq in E. subst y. exact Hy.
    + intros Hb. split; [|exists b; split; [exact Hb|apply Nat.eqb_refl]]. destruct (Hs a b Hb) as [->|(x & Hx)]; [left; reflexivity|right].
      apply entry_in in Hx. destruct Hx as [Hx <-]. apply (in_map (fun x => fst (fst x))). exact Hx.
  - intros a b _ Hb. destruct (Hs a b Hb) as [->|(x & Hx)]; [right|left; rewrite Hx; reflexivity].
    cbn in Hb. destruct Hb as [<-|[]]. auto.
  - intros a Ha Hb. destruct (entry l a) as [x|] eqn:Ex; [|discriminate]. unfold succsOf in Hb. destruct (Nat.eqb_spec a 0) as [->|]; [congruence|].
    rewrite Ex in Hb. apply entry_in in Ex. destruct Ex as [Ex _]. apply H in Ex. apply negb_true_iff in Ex.
    assert (Ht : existsb (Nat.eqb 0) (snd (fst x)) = true) by (apply existsb_exists; exists 0%nat; auto). congruence.
Qed.
Lemma inL_in l a : inL (build l) a = true -> In a (map (fun x => fst (fst x)) l).
Proof.
  cbn [build inL]. destruct (entry l a) as [x|] eqn:E; [|discriminate]. intros _. apply entry_in in E. destruct E as [E <-].
  apply (in_map (fun x => fst (fst x))). exact E.
Qed.
Ltac blocksOf H := apply inL_in in H; cbn in H; repeat destruct H as [<-|H]; try destruct H.

(** The memory is a number: how many steps are left.  Function 0 computes register 10 + 1 and
    decreases the memory, blocks choose successors by the memory. *)
Definition exSem (next : nat -> Z -> nat) : sem :=
  mkSem Z (fun f prev env m => (env 10%nat + 1, m - 1)) (fun b env m => next b m).
(** while (n > 0) { t = *p; u = t + 1; *p = u; if (n is even) *p = 5; } *)
Definition lEx : blocks :=
  [(1, [2; 9], []); (2, [3; 4], [ILoad 10; IOther 11 0; IStore (OReg 11)]); (3, [5], [IStore (OConst 5)]); (4, [5], []); (5, [1], [])]%nat.
Definition nextEx (b : nat) (m : Z) : nat :=
  match b with
  | 1 => if (0 <? m)%Z then 2 else 9
  | 2 => if Z.even m then 3 else 4
  | 3 | 4 => 5
  | _ => 1
  end%nat.
(** the same without *p = 5: a phi node is deleted *)
Definition lEx2 : blocks :=
  [(1, [2; 9], []); (2, [3; 4], [ILoad 10; IOther 11 0; IStore (OReg 11)]); (3, [5], []); (4, [5], []); (5, [1], [])]%nat.
Definition isDone (r : result) : bool := match r with Done _ => true | _ => false end.
(** the number of incoming values of phi nodes *)
Definition phiSizes (r : result) (bs : list nat) : list (option nat) :=
  match r with Done P => map (fun b => option_map (@length _) (tPhi P b)) bs | _ => [] end.
Lemma ssa_ex l : (l = lEx \/ l = lEx2) -> ssa (build l).
Proof.
  intros Hl S k x D j f H1 H2 HS HD. destruct Hl as [-> | ->]; blocksOf HS; blocksOf HD;
    try (destruct k as [|[|[|[|k]]]]; cbn in H1; discriminate);
    try (destruct j as [|[|[|[|j]]]]; cbn in H2; discriminate);
    destruct k as [|[|[|[|k]]]]; cbn in H1; try discriminate; destruct j as [|[|[|[|j]]]]; cbn in H2; try discriminate;
    left; split; auto; lia.
Qed.
Definition finalOf {M} (o : outcome M) : option (nat * Z) := match o with Exit _ e _ _ v => Some (e, v) | _ => None end.
Lemma final_exit M (o : outcome M) e v : finalOf o = Some (e, v) -> exists env m, o = Exit M e env m v.
Proof. destruct o as [e' env m v'| | |]; try discriminate. cbn [finalOf]. intros H. injection H as -> ->. exists env, m. reflexivity. Qed.
Example C57_ex :
  loopShape (build lEx) /\ oneExiting (build lEx) /\ exitsListed (build lEx) [9%nat] /\ ssa (build lEx) /\ branchRight (build lEx) (exSem nextEx) /\
  phiSizes (promote (build lEx) 20 [1; 5] [9])%nat [1; 2; 3; 4; 5]%nat = [Some 2; None; None; None; Some 2]%nat /\
  finalOf (runLoop (build lEx) (exSem nextEx) true 20 (fun _ => 0, 3, 40)) = Some (9%nat, 5) /\
  loopShape (build lEx2) /\ ssa (build lEx2) /\
  phiSizes (promote (build lEx2) 20 [1; 5] [9])%nat [1; 2; 3; 4; 5]%nat = [Some 2; None; None; None; None]%nat /\
  finalOf (runLoop (build lEx2) (exSem nextEx) true 20 (fun _ => 0, 3, 40)) = Some (9%nat, 43).
Proof.
  split; [apply build_shape; reflexivity|]. split; [|split; [|split; [|split; [|split; [|split; [|split; [|split; [|split]]]]]]]].
  - intros a b e Ha Hb He H1 H2. blocksOf Ha; blocksOf Hb; cbn in H1, H2; try reflexivity;
      repeat (destruct H1 as [<-|H1]; try discriminate He); try destruct H1; repeat (destruct H2 as [E|H2]; try discriminate E); try destruct H2.
  - intros a e Ha He Hs. blocksOf Ha; cbn in Hs; repeat (destruct Hs as [<-|Hs]; try discriminate He); try destruct Hs; left; reflexivity.
  - apply ssa_ex. left. reflexivity.
  - intros b env m Hb. blocksOf Hb; cbn; auto; [destruct (0 <? m); auto|destruct (Z.even m); auto].
  - reflexivity.
  - vm_compute. reflexivity.
  - apply build_shape. reflexivity.
  - apply ssa_ex. right. reflexivity.
  - reflexivity.
  - vm_compute. reflexivity.
Qed.

(** *** Refuted: if the loop is left from two blocks to the same exit, then one of last values is stored.
    while (n > 0) { *p = 1; if (n is even) break; } *)
Definition lBreak : blocks := [(1, [2; 9], []); (2, [9; 1], [IOther 11 0; IStore (OConst 1)])]%nat.
Definition nextBreak (b : nat) (m : Z) : nat :=
  match b with 1 => if (0 <? m)%Z then 2 else 9 | _ => if Z.even m then 9 else 1 end%nat.
Theorem C57_two_exiting_refuted :
  exists C UniqueNodes exits P M n s e env m env' m',
    loopShape C /\ exitsListed C exits /\ ssa C /\ branchRight C M /\ promote C 20 UniqueNodes exits = Done P /\
    runLoop C M true n s = Exit M e env m 1 /\ trunLoop C M P true n s = Exit M e env' m' 40.
Proof.
  destruct (promote (build lBreak) 20 [1%nat] [9%nat]) as [P| | |] eqn:EP; [|vm_compute in EP; discriminate..].
  assert (F1 : finalOf (runLoop (build lBreak) (exSem nextBreak) true 20 (fun _ => 0, 3, 40)) = Some (9%nat, 1)) by (vm_compute; reflexivity).
  assert (F2 : finalOf (trunLoop (build lBreak) (exSem nextBreak) P true 20 (fun _ => 0, 3, 40)) = Some (9%nat, 40)).
  { vm_compute in EP. injection EP as <-. vm_compute. reflexivity. }
  apply final_exit in F1, F2. destruct F1 as (env & m & F1), F2 as (env' & m' & F2).
  exists (build lBreak), [1%nat], [9%nat], P, (exSem nextBreak), 20%nat, (fun _ => 0, 3, 40), 9%nat, env, m, env', m'.
  split; [apply build_shape; reflexivity|]. split; [|split; [|split; [|split; [|split]]]].
  - intros a e Ha He Hs. blocksOf Ha; cbn in Hs; repeat (destruct Hs as [<-|Hs]; try discriminate He); try destruct Hs; left; reflexivity.
  - intros S k x D j f H1 H2 HS HD. blocksOf HS; destruct k as [|[|[|k]]]; cbn in H1; discriminate.
  - intros b env0 m0 Hb. blocksOf Hb; cbn; [destruct (0 <? m0); auto|destruct (Z.even m0); auto].
  - exact EP.
  - exact F1.
  - exact F2.
Qed.
Print Assumptions C57_two_exiting_refuted.

(** *** Refuted: a deleted phi node is stored after the loop.
    do { t = *p; u = t + 1; *p = u; if (n is even) ...; else ...; } while (n > 0) *)
Definition lDo (o : operand) : blocks :=
  [(1, [3; 4], [ILoad 10; IOther 11 0; IStore o]); (3, [5], []); (4, [5], []); (5, [1; 9], [])]%nat.
Lemma lDo_right o : loopShape (build (lDo o)) /\ oneExiting (build (lDo o)) /\ exitsListed (build (lDo o)) [9%nat].
Proof.
  split; [apply build_shape; reflexivity|]. split.
  - intros a b e Ha Hb He H1 H2. blocksOf Ha; blocksOf Hb; cbn in H1, H2; try reflexivity;
      repeat (destruct H1 as [<-|H1]; try discriminate He); try destruct H1; repeat (destruct H2 as [E|H2]; try discriminate E); try destruct H2.
  - intros a e Ha He Hs. blocksOf Ha; cbn in Hs; repeat (destruct Hs as [<-|Hs]; try discriminate He); try destruct Hs; left; reflexivity.
Qed.
Lemma lDo_ssa : ssa (build (lDo (OReg 11))).
Proof.
  intros S k x D j f H1 H2 HS HD. blocksOf HS; blocksOf HD;
    try (destruct k as [|[|[|[|k]]]]; cbn in H1; discriminate); try (destruct j as [|[|[|[|j]]]]; cbn in H2; discriminate).
  destruct k as [|[|[|[|k]]]]; cbn in H1; try discriminate; destruct j as [|[|[|[|j]]]]; cbn in H2; try discriminate.
  left. split; auto.
Qed.
Theorem C57_dangling_refuted :
  exists C UniqueNodes exits, loopShape C /\ oneExiting C /\ exitsListed C exits /\ ssa C /\ promote C 20 UniqueNodes exits = Dangling.
Proof.
  exists (build (lDo (OReg 11))), [1; 5]%nat, [9%nat]. destruct (lDo_right (OReg 11)) as (H1 & H2 & H3).
  repeat (split; [assumption|]). split; [apply lDo_ssa|reflexivity].
Qed.
Print Assumptions C57_dangling_refuted.

(** *** Refuted: the same loop with *p = 7: a null pointer is dereferenced by the transformation. *)
Theorem C57_constant_refuted :
  exists C UniqueNodes exits, loopShape C /\ oneExiting C /\ exitsListed C exits /\ promote C 20 UniqueNodes exits = Crash.
Proof.
  exists (build (lDo (OConst 7))), [1; 5]%nat, [9%nat]. destruct (lDo_right (OConst 7)) as (H1 & H2 & H3).
  repeat (split; [assumption|]). reflexivity.
Qed.
Print Assumptions C57_constant_refuted.

(** *** Refuted: the location is accessed before the loop, even if the loop does not access it.
    while (n > 0) *p = ... with n = 0 and a null pointer p. *)
Theorem C57_speculative_refuted :
  exists C UniqueNodes exits P M n s e env m v,
    loopShape C /\ oneExiting C /\ exitsListed C exits /\ ssa C /\ branchRight C M /\ promote C 20 UniqueNodes exits = Done P /\
    runLoop C M false n s = Exit M e env m v /\ trunLoop C M P false n s = Trap M.
Proof.
  destruct C57_ex as (H1 & H2 & H3 & H4 & H5 & _).
  destruct (promote (build lEx) 20 [1; 5]%nat [9%nat]) as [P| | |] eqn:EP; [|vm_compute in EP; discriminate..].
  assert (F1 : finalOf (runLoop (build lEx) (exSem nextEx) false 20 (fun _ => 0, 0, 40)) = Some (9%nat, 40)) by (vm_compute; reflexivity).
  apply final_exit in F1. destruct F1 as (env & m & F1).
  exists (build lEx), [1; 5]%nat, [9%nat], P, (exSem nextEx), 20%nat, (fun _ => 0, 0, 40), 9%nat, env, m, 40.
  repeat (split; [assumption|]). reflexivity.
Qed.
Print Assumptions C57_speculative_refuted.
