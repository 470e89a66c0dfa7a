(** C79: expressions of a source code are paired with instructions. *)
From Coq Require Import PeanoNat Bool List Lia Permutation.
From Verif Require Import MatchModel MatchSpec MatchProof.
Import ListNotations.

Theorem C79_pairs : C79_pairs_claim.
Proof. exact pairs_ok. Qed.
Print Assumptions C79_pairs.

Definition same (l : list (loc * list nat)) := l.
Lemma same_order : someOrder same.
Proof. intro l. apply Permutation_refl. Qed.
(** Two items at the location 5, items from an expansion at 70 and from an expansion at 71. *)
Definition exTs : list item :=
  [Item 1 5 false; Item 2 70 true; Item 3 5 false; Item 4 6 false; Item 5 70 true; Item 6 71 true].
Definition exIs : list instruction :=
  [(10, Some 5); (11, Some 7); (12, None); (13, Some 7); (14, Some 5); (15, Some 8); (16, Some 8)].
Definition exPresumed (r : loc) : loc := if Nat.eqb r 70 then 7 else 8.
Example C79_pairs_case : exists s,
  run true false true exPresumed same exIs exTs = Done s /\
  sMatch s = [(1, 10); (3, 14); (2, 11); (5, 13)] /\ sUnmatched s = [6; 4].
Proof. eexists. split; [vm_compute; reflexivity|]. split; reflexivity. Qed.

Theorem C79_macro : C79_macro_claim.
Proof. exact macro_ok. Qed.
Print Assumptions C79_macro.
Example C79_macro_case : NoDup (map tNode exTs) /\ NoDup (map fst exIs) /\
  (forall t, In t exTs -> tMacro t = true -> exPresumed (tLoc t) = exPresumed 70 -> tLoc t = 70) /\
  (forall t, In t exTs -> tMacro t = false -> tLoc t <> exPresumed 70) /\
  nodesAt exTs 70 = [2; 5] /\ instrsAt exIs (exPresumed 70) = [11; 13].
Proof.
  split; [repeat constructor; cbn; intuition discriminate|].
  split; [repeat constructor; cbn; intuition discriminate|].
  repeat split; intros t H; cbn in H; repeat (destruct H as [<-|H]; [cbn; intros; try discriminate; auto|]);
    destruct H.
Qed.

Theorem C79_exact_partial : C79_exact_claim true true true.
Proof. exact exact_ok. Qed.
Print Assumptions C79_exact_partial.
(** x += a[i][j] + p[*q++] *)
Definition ex1 : expr :=
  Assign 1 1 true (Ref 2 2 false)
    (Bin 3 3
      (Sub 4 (Sub 5 (Ref 6 6 true) (Ref 7 7 false)) (Ref 8 8 false))
      (Sub 9 (Ref 10 10 false) (Deref 11 11 (IncDec 12 12 (Ref 13 13 false))))).
Example C79_exact_case : typed ex1 /\ NoDup (ids ex1) /\ NoDup (locs ex1) /\ noIncSub ex1 /\
  simpleIndex ex1 /\
  accesses ex1 true = [(7, 7); (8, 8); (5, 6); (10, 10); (13, 12); (12, 12); (11, 11); (9, 10);
                       (2, 1); (1, 1)] /\
  exists s, run true true false (fun l => l) same (instructionsOf (fun _ => true) ex1) (visits ex1) = Done s /\
    sMatch s = [(2, 8); (1, 9); (7, 0); (5, 2); (8, 1); (10, 3); (11, 6); (13, 4); (12, 5); (9, 7)].
Proof.
  split; [cbn; tauto|]. split; [cbn; repeat constructor; cbn; intuition discriminate|].
  split; [cbn; repeat constructor; cbn; intuition discriminate|].
  split; [cbn; tauto|]. split; [cbn; tauto|]. split; [reflexivity|].
  eexists. split; [vm_compute; reflexivity|reflexivity].
Qed.

(** p[i]++ stops a build with assertions. *)
Theorem C79_exact_refuted_inc : ~ C79_exact_claim false true true.
Proof.
  intro H.
  destruct (H true true false (fun l => l) same
    (IncDec 1 1 (Sub 2 (Ref 3 3 false) (Ref 4 4 false))) (fun _ => true) same_order)
    as (s & E & _); try discriminate; cbn; try tauto; try (repeat constructor; cbn; intuition discriminate).
Qed.
Print Assumptions C79_exact_refuted_inc.
(** a[i][b[k]]: the subscript b[k] is not paired, a[i][...] is visited twice. *)
Theorem C79_exact_refuted_index : ~ C79_exact_claim true false true.
Proof.
  intro H.
  destruct (H true true false (fun l => l) same
    (Sub 1 (Sub 2 (Ref 3 3 true) (Ref 4 4 false)) (Sub 5 (Ref 6 6 true) (Ref 7 7 false)))
    (fun _ => true) same_order)
    as (s & E & _); try discriminate; cbn; try tauto; try (repeat constructor; cbn; intuition discriminate).
Qed.
Print Assumptions C79_exact_refuted_index.
(** x += 1, the load of x is optimized away: the store is paired with x. *)
Theorem C79_exact_refuted_kept : ~ C79_exact_claim true true false.
Proof.
  intro H.
  destruct (H false true false (fun l => l) same
    (Assign 1 1 true (Ref 2 2 false) (Const 3 3)) (fun k => negb (Nat.eqb k 0)) same_order)
    as (s & E & P); try discriminate; cbn; try tauto; try (repeat constructor; cbn; intuition discriminate).
  vm_compute in E. injection E as <-.
  destruct (proj1 (P 2 1) (or_introl eq_refl)) as (_ & l & Q). discriminate Q.
Qed.
Print Assumptions C79_exact_refuted_kept.

Theorem C79_unmatched_partial : C79_unmatched_claim true.
Proof. exact unmatched_ok. Qed.
Print Assumptions C79_unmatched_partial.
(** y = a[i][j]; the address y is not paired *)
Definition ex2 : expr :=
  Assign 1 1 false (Ref 2 2 false) (Sub 4 (Sub 5 (Ref 6 6 true) (Ref 7 7 false)) (Ref 8 8 false)).
Example C79_unmatched_case : typed ex2 /\ NoDup (ids ex2) /\ noIncs ex2 /\
  exists s, run true true false (fun l => l) same (instructionsOf (fun _ => true) ex2) (visits ex2) = Done s /\
    sUnmatched s = [2] /\ length (sMatch s) = 4.
Proof.
  split; [cbn; tauto|]. split; [cbn; repeat constructor; cbn; intuition discriminate|].
  split; [cbn; tauto|]. eexists. split; [vm_compute; reflexivity|]. split; reflexivity.
Qed.
(** i++: the variable is paired with the load and is reported as unmatched. *)
Theorem C79_unmatched_refuted : ~ C79_unmatched_claim false.
Proof.
  intro H.
  pose (e := IncDec 1 1 (Ref 2 2 false)).
  destruct (run true true false (fun l => l) same (instructionsOf (fun _ => true) e) (visits e))
    as [|s] eqn:E; [vm_compute in E; discriminate E|].
  refine (H true true false (fun l => l) same e (instructionsOf (fun _ => true) e) s same_order _ _ _ E 2 0 _ _).
  - cbn. tauto.
  - cbn. repeat constructor; cbn; intuition discriminate.
  - discriminate.
  - vm_compute in E. injection E as <-. now left.
  - vm_compute in E. injection E as <-. now left.
Qed.
Print Assumptions C79_unmatched_refuted.
