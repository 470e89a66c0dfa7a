(** C75.  Traits of a variable in a loop stay true and useful when the analysis is repeated
    after a transformation and existing traits are updated. *)
From Coq Require Import ZArith Bool List Lia.
From Verif Require Import TraitModel TraitSpec ClarifyModel ClarifySpec ClarifyProof.
Import ListNotations.

(* a set of traits which consists of the listed ones, without descriptions *)
Definition only (ts : list trait) : traits :=
  Traits (fun t => existsb (trait_eqb t) ts) (fun _ => None).
(* a loop with one iteration which does not access a variable with the value 0; the value is
   used after the loop *)
Definition idle : behaviour nat := Beh nat 0%nat [[]] true.

Lemma reads_idle : forall c o, (o = ONone \/ (c = true /\ o = OLast)) -> privateOk nat idle c o.
Proof.
  intros c o H. split.
  - intros g i it E. destruct i as [|[|i]]; cbn in E; try discriminate.
    injection E as <-. reflexivity.
  - intros _. destruct H as [->|[-> ->]]; cbn; auto.
Qed.
Lemma idle_dep : forall k i j, ~ dependence nat idle k i j.
Proof.
  intros k i j (L & x & y & _ & E & _). destruct j as [|[|j]]; cbn in E; try discriminate. lia.
Qed.

(** The updated traits are true for all executions the existing and the new ones are true
    for.  Missing: updates which discard a mark 'first private' because of inaccurate new
    traits. *)
Theorem C75_true_partial : C75_true_claim true.
Proof. exact true_partial. Qed.
Print Assumptions C75_true_partial.

(* a loop: [x = a[i]; b[i] = x], the value of x is used after the loop *)
Definition assigns : behaviour nat := Beh nat 0%nat [[Wr nat 1%nat; Rd nat]; [Wr nat 2%nat; Rd nat]] true.
(* existing traits: anti and output dependences; new ones: x is last private *)
Definition dOld : traits :=
  Traits (tDescr (only [TAnti; TOutput; TExplicitAccess]))
    (fun k => match k with KOutput => Some (Dep (Some 1%Z) None) | _ => None end).
Definition dNew : traits := only [TLastPrivate; TAddressAccess].
Lemma assigns_dep : forall k i j, dependence nat assigns k i j -> i = 0%nat /\ j = 1%nat.
Proof.
  intros k i j (L & x & y & E1 & E2 & _).
  destruct j as [|[|j]]; [lia| |destruct j; discriminate E2]. lia.
Qed.
Lemma assigns_old : holds nat (fun _ => False) (fun _ => False) dOld assigns.
Proof.
  split.
  - constructor; try discriminate. intros _ k E. destruct k; try discriminate.
    intros i j (L & x & y & E1 & E2 & W & [r Ex]).
    destruct j as [|[|j]]; [lia| |destruct j; discriminate E2]. injection E2 as <-.
    discriminate Ex.
  - intros k x E i j H. apply assigns_dep in H. destruct H as [-> ->].
    destruct k; cbn in E; try discriminate. injection E as <-.
    split; cbn; intros l El; [injection El as <-; lia|discriminate].
Qed.
Lemma assigns_new : holds nat (fun _ => False) (fun _ => False) dNew assigns.
Proof.
  split.
  - constructor; try discriminate.
    + intros _. split.
      * intros g i it E. destruct i as [|[|[|i]]]; cbn in E; try discriminate;
          injection E as <-; reflexivity.
      * intros _ g. reflexivity.
    + intros [A|[A|A]]; discriminate A.
  - intros k x E. destruct k; discriminate.
Qed.
Example C75_true_nonvacuous :
  dropsSafely (tDescr dNew) (tDescr dOld) /\
  holds nat (fun _ => False) (fun _ => False) dNew assigns /\
  holds nat (fun _ => False) (fun _ => False) dOld assigns /\
  tDescr (clarify dNew dOld) TLastPrivate = true /\
  tDescr (clarify dNew dOld) TAnti = false /\
  tDescr (clarify dNew dOld) TExplicitAccess = true.
Proof.
  split; [intro H; discriminate H|]. split; [exact assigns_new|].
  split; [exact assigns_old|]. repeat split.
Qed.

(** If the repeated analysis only finds possible dependences, a last private variable which
    needs a copy-in loses it: garbage is used after the loop. *)
Theorem C75_true_refuted : ~ C75_true_claim false.
Proof.
  intro H.
  pose (D := only [TLastPrivate; TFirstPrivate]). pose (F := only [TFlow; TAnti; TOutput]).
  assert (HD : holds nat (fun _ => True) (fun _ => True) D idle).
  { split.
    - constructor; try discriminate.
      + intros _. apply reads_idle. right. auto.
      + intros [A|[A|A]]; discriminate A.
    - intros k x E. destruct k; discriminate. }
  assert (HF : holds nat (fun _ => True) (fun _ => True) F idle).
  { split.
    - constructor; try discriminate. intros _ k E. destruct k; discriminate.
    - intros k x E. destruct k; discriminate. }
  destruct (H nat (fun _ => True) (fun _ => True) F D idle ltac:(discriminate) HF HD) as [C _].
  destruct (hLast _ _ _ _ _ C eq_refl) as [_ R]. specialize (R eq_refl 5%nat). discriminate R.
Qed.
Print Assumptions C75_true_refuted.

(** The same happens if the repeated analysis says that the iteration with the final value
    is unknown: each set of traits is true alone. *)
Theorem C75_dynamic_refuted :
  exists (F D : traits) (b : behaviour nat),
    tDescr D TLastPrivate = true /\ tDescr D TFirstPrivate = true /\
    tDescr F TDynamicPrivate = true /\
    holds nat (fun _ => False) (fun _ => False) F b /\
    holds nat (fun _ => False) (fun _ => False) D b /\
    ~ holds nat (fun _ => False) (fun _ => False) (clarify F D) b.
Proof.
  exists (only [TDynamicPrivate]), (only [TLastPrivate; TFirstPrivate]), idle.
  split; [reflexivity|]. split; [reflexivity|]. split; [reflexivity|]. split; [|split].
  - split.
    + constructor; try discriminate.
      * intros _. split.
        -- exact (proj1 (reads_idle false ONone (or_introl eq_refl))).
        -- intros _. exists 1%nat. intro g. reflexivity.
      * intros [A|[A|A]]; discriminate A.
    + intros k x E. destruct k; discriminate.
  - split.
    + constructor; try discriminate.
      * intros _. apply reads_idle. right. auto.
      * intros [A|[A|A]]; discriminate A.
    + intros k x E. destruct k; discriminate.
  - intros [C _]. destruct (hLast _ _ _ _ _ C eq_refl) as [_ R].
    specialize (R eq_refl 5%nat). discriminate R.
Qed.
Print Assumptions C75_dynamic_refuted.

(** A variable which can be treated in parallel stays so.  Missing: variables which are
    'first private' only, if the new traits admit a serial execution only. *)
Theorem C75_parallel_partial : C75_parallel_claim true.
Proof. exact parallel_partial. Qed.
Print Assumptions C75_parallel_partial.
Example C75_parallel_nonvacuous :
  let F := only [TFlow; TAnti; TOutput] in let D := only [TPrivate] in
  tDescr D TFirstPrivate = false /\ parallel (tDescr D) /\ ~ parallel (tDescr F) /\
  tDescr (clarify F D) TPrivate = true.
Proof.
  cbv zeta. split; [reflexivity|]. split; [exists MakePrivate; split; [discriminate|reflexivity]|].
  split; [|reflexivity]. intros [t [A B]]. destruct t; cbn in B; congruence.
Qed.

(** A variable which is only 'first private' becomes a cause of unknown dependences when the
    repeated analysis is less accurate. *)
Theorem C75_parallel_refuted : ~ C75_parallel_claim false.
Proof.
  intro H.
  destruct (H (only [TFlow; TAnti; TOutput]) (only [TFirstPrivate]) ltac:(discriminate)) as [t [A B]].
  - exists CopyIn. split; [discriminate|reflexivity].
  - destruct t; cbn in B; congruence.
Qed.
Print Assumptions C75_parallel_refuted.

(** Marks of accesses are never lost; marks of accesses in a header and dependences never
    appear. *)
Theorem C75_marks : C75_marks_claim.
Proof. exact marks. Qed.
Print Assumptions C75_marks.
Example C75_marks_nonvacuous :
  let F := only [TReadonly] in let D := only [TFlow; TAddressAccess; TUseAfterLoop] in
  tDescr (clarify F D) TReadonly = true /\ tDescr (clarify F D) TAddressAccess = true /\
  tDescr (clarify F D) TUseAfterLoop = true /\ tDescr (clarify F D) TFlow = false.
Proof. cbv zeta. repeat split. Qed.

(** A distance which is known before the update, or which the repeated analysis has found, is
    known after it. *)
Theorem C75_distance : C75_distance_claim.
Proof. exact distance. Qed.
Print Assumptions C75_distance.
Example C75_distance_nonvacuous :
  let F := Traits (tDescr (only [TFlow; TAnti]))
             (fun k => match k with KFlow => Some (Dep (Some 1) (Some 2))%Z | _ => None end) in
  let D := Traits (tDescr (only [TFlow])) (fun _ => Some (Dep None (Some 7%Z))) in
  wellFormed (tDescr D) /\ getDep (clarify F D) KFlow = Some (Dep (Some 1) (Some 2))%Z /\
  getDep (clarify F D) KAnti = None.
Proof.
  cbv zeta. split; [|split; reflexivity].
  exists [TFlow; TAnti; TOutput]. split; [cbn [In alternatives]; tauto|].
  intros t E. right. destruct t; cbn in E; try discriminate. left. reflexivity.
Qed.
