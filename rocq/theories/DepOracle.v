(** An oracle that satisfies [soundOracle]: ScalarEvolution queries decided by
    enumeration of finitely many environments.  Used to show that the
    hypotheses of the dependence theorems can be met and to build
    counterexamples. *)
From Coq Require Import ZArith Bool List Lia.
From Verif Require Import DepModel DepSpec.
Import ListNotations.
Open Scope Z_scope.

Section F.
Context {Env : Type} (e0 : Env) (envs : list Env).
Hypothesis complete : forall e, In e (e0 :: envs).
Definition everywhere (p : Env -> bool) : bool := forallb p (e0 :: envs).
Definition cmpb (p : cmp) (x y : Z) : bool :=
  match p with
  | ICMP_EQ => x =? y | ICMP_NE => negb (x =? y)
  | ICMP_SGE => y <=? x | ICMP_SLE => x <=? y
  | ICMP_SGT => y <? x | ICMP_SLT => x <? y
  end.
Definition finOracle : oracle Env := {|
  seNonNeg := fun x => everywhere (fun e => 0 <=? x e);
  seNonPos := fun x => everywhere (fun e => x e <=? 0);
  sePos := fun x => everywhere (fun e => 0 <? x e);
  seNeg := fun x => everywhere (fun e => x e <? 0);
  seNonZero := fun x => everywhere (fun e => negb (x e =? 0));
  sePred := fun p x y => everywhere (fun e => cmpb p (x e) (y e));
  seConst := fun x => if everywhere (fun e => x e =? x e0) then Some (x e0) else None;
  seEnclosing := fun _ _ => true |}.

Lemma everywhere_ok p : everywhere p = true -> forall e, p e = true.
Proof. unfold everywhere. rewrite forallb_forall. intros H e. apply H, complete. Qed.
Lemma finOracle_sound : soundOracle finOracle.
Proof.
  split; simpl; intros.
  - pose proof (everywhere_ok _ H e) as K. simpl in K. lia.
  - pose proof (everywhere_ok _ H e) as K. simpl in K. lia.
  - pose proof (everywhere_ok _ H e) as K. simpl in K. lia.
  - pose proof (everywhere_ok _ H e) as K. simpl in K. lia.
  - pose proof (everywhere_ok _ H e) as K. simpl in K. lia.
  - pose proof (everywhere_ok _ H e) as K. simpl in K. destruct p; simpl in *; lia.
  - destruct (everywhere (fun e => x e =? x e0)) eqn:E; [|discriminate].
    injection H as <-. pose proof (everywhere_ok _ E e) as K. simpl in K. lia.
  - destruct (everywhere (fun e => x e =? x e0)) eqn:E; [|discriminate].
    injection H as <-.
    assert (Hc : forall e, x e = x e0).
    { intros e. pose proof (everywhere_ok _ E e) as K. simpl in K. lia. }
    unfold everywhere. destruct (x e0 <? 0) eqn:Es.
    + apply forallb_forall. intros e _. rewrite Hc; auto.
    + simpl. rewrite Es. reflexivity.
Qed.
End F.

(** Two environments: a symbol takes one of two values. *)
Definition boolOracle : oracle bool := finOracle true [false].
Lemma boolOracle_sound : soundOracle boolOracle.
Proof. apply finOracle_sound. intros []; simpl; auto. Qed.
