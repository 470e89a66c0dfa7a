(** C84: data transfer between a host and an accelerator. *)
From Coq Require Import PeanoNat Bool List ZArith Lia.
From Verif Require Import TransferModel TransferSpec TransferProof.
Import ListNotations.

(* A is 1, B is 2: both are input variables, B is also an output variable; nodes of A and B are
   children of the node 0, variable 7 is used on the host only *)
Definition related3 (n m : nat) : bool := Nat.eqb n m || Nat.eqb n 0 || Nat.eqb m 0.
Definition regionAB : region := Region [1; 2] [2].
Definition funcAB : func := Func (fun v => v) related3 [0] [regionAB; Region [1] []] (fun v => negb (Nat.eqb v 7)) false.
Definition storeA : list access := [Access (Some 1) false true false; Access (Some 7) true false false].
Definition loadB : list access := [Access (Some 2) true false false].
Definition callU : list access := [Access None true true false].
Definition traceAB : list event :=
  [EDev regionAB [(1, 0); (2, 4)] (write1 2 4 6%Z);
   EHost storeA [(7, 0)] (write1 1 0 8%Z);
   EDev regionAB [(1, 0); (2, 4)] (write1 2 5 9%Z);
   EHost loadB [(2, 4); (2, 5)] (write1 7 0 1%Z);
   EHost callU [(2, 5); (1, 0)] (write1 2 5 3%Z);
   EDev regionAB [(2, 5)] (write1 2 6 2%Z)].
(* the accelerator has obsolete copies of A and B *)
Definition stateAB : mstate := State zeros (fun _ _ => 77%Z) (fun _ => true) (fun v => negb (Nat.eqb v 7)).

(** The full statement is C84_coherent_claim false false. *)
Theorem C84_coherent_partial : C84_coherent_claim true true.
Proof. exact coherent_true. Qed.
Print Assumptions C84_coherent_partial.
Lemma isIn_AB v : isIn funcAB v \/ isOut funcAB v -> v = 1 \/ v = 2.
Proof.
  intros [(r & [<-|[<-|[]]] & Iv)|(r & [<-|[<-|[]]] & Iv)]; cbn in Iv; intuition.
Qed.
Example C84_coherent_case : relatedOk funcAB /\ initial funcAB zeros stateAB /\ (forall e, In e traceAB -> sound funcAB e) /\
  (forall i rs w v c, In (EHost i rs w) traceAB -> w v c <> None -> isOut funcAB v -> isIn funcAB v) /\
  (forall i rs w a, In (EHost i rs w) traceAB -> In a i -> aInduct a = false) /\
  fst (execute funcAB traceAB stateAB) = [[0; 0]; [0]; [8; 6]; [6; 9]; [9; 8]; [3]]%Z /\
  host (snd (execute funcAB traceAB stateAB)) 2 6 = 2%Z.
Proof.
  split; [intro n; unfold relatedOk, related3; cbn; unfold related3; rewrite Nat.eqb_refl; reflexivity|].
  split.
  { split; [reflexivity|]. split; [reflexivity|]. intros v [Q|Q]; [discriminate Q|exact Q]. }
  assert (D : forall rs c x, (forall v e, In (v, e) rs -> v = 1 \/ v = 2) -> sound funcAB (EDev regionAB rs (write1 2 c x))).
  { intros rs c x R. split; [left; reflexivity|]. split.
    - intros v e I1. destruct (R v e I1) as [-> | ->]; cbn; tauto.
    - split; [intros v e y E; destruct (write1_some _ _ _ _ _ _ E) as [-> _]; left; reflexivity|].
      intros v e Io Ni. destruct Ni. destruct Io as [<-|[]]. right; left; reflexivity. }
  split.
  { intros e He. destruct He as [<-|[<-|[<-|[<-|[<-|[<-|[]]]]]]].
    - apply D. intros v e [Q|[Q|[]]]; injection Q as <- _; tauto.
    - split.
      + intros v c [Q|[]] Io. injection Q as <- _. destruct (isIn_AB _ Io) as [Q|Q]; discriminate Q.
      + intros v c x E _. destruct (write1_some _ _ _ _ _ _ E) as [-> _].
        exists (Access (Some 1) false true false). split; [left; reflexivity|]. split; reflexivity.
    - apply D. intros v e [Q|[Q|[]]]; injection Q as <- _; tauto.
    - split.
      + intros v c [Q|[Q|[]]] _; injection Q as <- _;
          (exists (Access (Some 2) true false false); split; [left; reflexivity|]; split; reflexivity).
      + intros v c x E Io. destruct (write1_some _ _ _ _ _ _ E) as [-> _].
        destruct (isIn_AB _ Io) as [Q|Q]; discriminate Q.
    - split.
      + intros v c I1 _. exists (Access None true true false). split; [left; reflexivity|]. split; [reflexivity|].
        exists 0. split; [left; reflexivity|]. cbn. unfold related3. cbn. rewrite orb_true_r. reflexivity.
      + intros v c x E _. exists (Access None true true false). split; [left; reflexivity|]. split; [reflexivity|].
        exists 0. split; [left; reflexivity|]. cbn. unfold related3. cbn. rewrite orb_true_r. reflexivity.
    - apply D. intros v e [Q|[]]; injection Q as <- _; tauto. }
  split.
  { intros i rs w v c _ _ (r & [<-|[<-|[]]] & Iv); [|destruct Iv]. destruct Iv as [<-|[]].
    exists regionAB. split; [left; reflexivity|right; left; reflexivity]. }
  split.
  { intros i rs w a He Ia.
    repeat (destruct He as [He|He]; [try discriminate He; injection He as <- _ _;
      repeat (destruct Ia as [<-|Ia]; [reflexivity|]); destruct Ia|]). destruct He. }
  split; reflexivity.
Qed.
(** An array is written by an accelerator entirely and then by the host: the host does not obtain
    the array before it writes an element and does not inform about this write. *)
Theorem C84_coherent_refuted_written : ~ C84_coherent_claim false true.
Proof. exact coherent_refuted_written. Qed.
Print Assumptions C84_coherent_refuted_written.
(** A write to an induction variable is ignored if there is a parallel loop after it, even if there
    is another region between them. *)
Theorem C84_coherent_refuted_induction : ~ C84_coherent_claim true false.
Proof. exact coherent_refuted_induct. Qed.
Print Assumptions C84_coherent_refuted_induction.

Theorem C84_precise : C84_precise_claim.
Proof. exact precise_true. Qed.
Print Assumptions C84_precise.
Example C84_precise_case : visitInstr funcAB storeA = Dirs [] [] [1] /\ visitInstr funcAB loadB = Dirs [2] [2] [] /\
  visitInstr funcAB callU = Dirs [2] [2] [1; 2].
Proof. repeat split; reflexivity. Qed.

(** The full statement is C84_exit_claim false. *)
Theorem C84_exit_partial : C84_exit_claim true.
Proof. exact exit_true. Qed.
Print Assumptions C84_exit_partial.
Example C84_exit_case : exitPos [false; false; false] = Some 2.
Proof. reflexivity. Qed.
Theorem C84_exit_refuted : ~ C84_exit_claim false.
Proof. exact exit_refuted. Qed.
Print Assumptions C84_exit_refuted.

(** The full statement is C84_callee_claim false. *)
Theorem C84_callee_partial : C84_callee_claim true.
Proof. exact callee_true. Qed.
Print Assumptions C84_callee_partial.
Example C84_callee_case : (forall v, In v (concat [[1]; [2; 3]]) <-> In v (concat [[3; 2; 1]])) /\
  collectInCallee [[1]; [2; 3]] [[3; 2; 1]] [2] [3; 4] false = (([1; 3], [2]), ([1; 2], [3])).
Proof. split; [intro v; cbn; intuition|reflexivity]. Qed.
(** Variables of actual are used instead of variables of get_actual after a call. *)
Theorem C84_callee_refuted : ~ C84_callee_claim false.
Proof. exact callee_refuted. Qed.
Print Assumptions C84_callee_refuted.
