(** C103: the tree of source files. *)
From Coq Require Import List Bool Arith Lia.
From Verif Require Import IncludeModel IncludeSpec IncludeProof.
Import ListNotations.

(** main.c (1) includes a.h (2) and b.h (4), a.h includes c.h (3); declarations 10-13 are in files,
    14 is internal. *)
Definition exInc (f : nat) : option nat := match f with 2 => Some 1 | 3 => Some 2 | 4 => Some 1 | _ => None end.
Definition exCtx : context := Ctx exInc [(10, Some 3); (11, Some 1); (12, Some 4); (13, Some 3); (14, None)].
Definition exCtx0 : context := Ctx exInc [(10, Some 3); (11, Some 1); (12, Some 4); (13, Some 3)].
Lemma ex_ordered : ordered exCtx.
Proof. intros f p H. cbn in H. do 5 (destruct f as [|f]; cbn in H; [try discriminate; inversion H; lia|]). discriminate. Qed.
(** Another translation unit with its own files *)
Definition exOther : context := Ctx (fun _ => None) [(20, Some 1)].

Theorem C103_tree : C103_tree_claim.
Proof. exact tree_ok. Qed.
Print Assumptions C103_tree.
Example C103_tree_ex : ordered exCtx /\ files (reconstructAll [exCtx]) = [(3, 0); (2, 0); (1, 0); (4, 0)] /\
  edges (reconstructAll [exCtx]) = [(2, 3); (1, 2); (1, 4)] /\ internals (reconstructAll [exCtx]) = [14].
Proof. split; [exact ex_ordered|]. repeat split. Qed.

Theorem C103_root : C103_root_claim.
Proof. exact root_ok. Qed.
Print Assumptions C103_root.
Example C103_root_ex : findRoot 4 3 (reconstructAll [exCtx]) = 1 /\ roots [exCtx] (reconstructAll [exCtx]) = [(1, 0)].
Proof. split; reflexivity. Qed.

Theorem C103_count_partial : C103_count_claim true.
Proof. exact count_ok. Qed.
Print Assumptions C103_count_partial.
Example C103_count_ex : ordered exCtx0 /\ (forall d, ~ In (d, None) (decls exCtx0)) /\ rootSize [exCtx0] (reconstructAll [exCtx0]) = 1.
Proof.
  split; [exact ex_ordered|]. split; [|reflexivity]. intros d I. cbn in I. repeat (destruct I as [I|I]; [discriminate|]). exact I.
Qed.

Theorem C103_count_refuted : ~ C103_count_claim false.
Proof. 
  intros H. destruct (H exCtx ex_ordered) as (l & L & N & E); [discriminate|].
  change (rootSize [exCtx] (reconstructAll [exCtx])) with 2 in L.
  assert (A : forall f, In f l -> f = 1).
  { intros f I. apply E in I. destruct I as [I J]. cbn in I. destruct I as [<-|[<-|[<-|[<-|[]]]]]; try discriminate J. reflexivity. }
  destruct l as [|a [|b [|c l]]]; try discriminate L. inversion N as [|? ? X Y]; subst. apply X. left.
  rewrite (A a), (A b); [reflexivity|right; left; reflexivity|left; reflexivity].
 Qed.
Print Assumptions C103_count_refuted.

Theorem C103_find_partial : C103_find_claim true.
Proof. exact find_ok. Qed.
Print Assumptions C103_find_partial.
Example C103_find_ex : find 13 (reconstructAll [exCtx]) = Some (3, 0) /\ NoDup (map fst (flat_map decls [exCtx])) /\
  In (13, Some 3) (decls exCtx).
Proof.
  split; [reflexivity|]. split; [|cbn; tauto]. cbn. repeat (constructor; [cbn; lia|]). constructor.
Qed.

Theorem C103_find_refuted : ~ C103_find_claim false.
Proof. 
  intros H. assert (E : find 20 (reconstructAll [exCtx; exOther]) = Some (1, 1)).
  { apply (H _ _ exOther); [discriminate| | |reflexivity|left; reflexivity].
    - intros c [<-|[<-|[]]]; [exact ex_ordered|]. intros f p X. discriminate X.
    - cbn. repeat (constructor; [cbn; lia|]). constructor. }
  vm_compute in E. discriminate E.
 Qed.
Print Assumptions C103_find_refuted.

