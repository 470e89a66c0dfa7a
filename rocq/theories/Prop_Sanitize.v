(** Property C92. *)
From Coq Require Import PeanoNat Bool List Permutation Lia.
From Verif Require Import SanitizeModel SanitizeSpec SanitizeProof.
Import ListNotations.

Definition flow : tv := TDep true false false.

(** A concrete set: the node 1 is a private pointer, the node 2 contains an array
    and memory accessed through the pointer, the node 3 has two arrays, the node 4
    is a single location. *)
Definition ex_ds : list dnode :=
  [ DNode 1 [Loc None TPrivate] [] TPrivate;
    DNode 2 [Loc (Some 1) flow; Loc None (TOther 5)] [] flow;
    DNode 3 [Loc None flow; Loc None (TOther 5)] [] flow;
    DNode 4 [Loc None flow] [] flow ].
Lemma ex_visits : visits [3; 2; 1; 4] ex_ds.
Proof.
  split; [repeat constructor; cbn; intuition discriminate | ]. cbn.
  apply NoDup_Permutation; [repeat constructor; cbn; intuition discriminate | repeat constructor; cbn; intuition discriminate | ].
  intros x. cbn. intuition.
Qed.
Lemma ex_plain : plain_pointers ex_ds.
Proof.
  intros n l p np Hn Hl L Hp E [f [a [o [D _]]]]. cbn in Hn.
  destruct Hn as [<- | [<- | [<- | [<- | []]]]]; cbn in Hl;
    repeat (destruct Hl as [<- | Hl]); try (destruct Hl; fail); try discriminate L.
  injection L as <-. cbn in Hp. destruct Hp as [<- | [<- | [<- | [<- | []]]]]; try discriminate E. discriminate D.
Qed.
Example C92_example :
  sanitize [3; 2; 1; 4] ex_ds =
  [ DNode 1 [Loc None TPrivate] [] TPrivate;
    DNode 2 [Loc (Some 1) flow; Loc None (TOther 5)] [] (TOther 5);
    DNode 3 [Loc None flow; Loc None flow] [] flow;
    DNode 4 [Loc None flow] [] flow ]
  /\ visits [3; 2; 1; 4] ex_ds /\ plain_pointers ex_ds.
Proof. split; [reflexivity | ]. split; [apply ex_visits | apply ex_plain]. Qed.

Theorem C92_same : C92_same_claim.
Proof. exact same_true. Qed.
Print Assumptions C92_same.
Theorem C92_untouched : C92_untouched_claim.
Proof. exact untouched_true. Qed.
Print Assumptions C92_untouched.
Theorem C92_uniform : C92_uniform_claim.
Proof. exact uniform_true. Qed.
Print Assumptions C92_uniform.
Theorem C92_kept : C92_kept_claim.
Proof. exact kept_true. Qed.
Print Assumptions C92_kept.
Theorem C92_drop : C92_drop_claim.
Proof. exact drop_true. Qed.
Print Assumptions C92_drop.
Example C92_drop_example :
  exists n n', result [3; 2; 1; 4] ex_ds n n' /\ nId n = 2 /\ dep (nTrait n) /\ ~ alone n
    /\ justified ex_ds n (Loc None (TOther 5)) /\ nTrait n' = TOther 5.
Proof.
  exists (DNode 2 [Loc (Some 1) flow; Loc None (TOther 5)] [] flow), (DNode 2 [Loc (Some 1) flow; Loc None (TOther 5)] [] (TOther 5)).
  split; [ | split; [reflexivity | split; [ | split; [ | split; [ | reflexivity]]]]].
  - split; [right; left; reflexivity | ]. split; [right; left; reflexivity | reflexivity].
  - exists true, false, false. split; [reflexivity | left; reflexivity].
  - intros [_ [l E]]. discriminate E.
  - exists [Loc (Some 1) flow], []. split; [reflexivity | ]. split; [reflexivity | ]. intros l [<- | []].
    exists 1, (DNode 1 [Loc None TPrivate] [] TPrivate). split; [reflexivity | ]. split; [left; reflexivity | ].
    split; reflexivity.
Qed.
Theorem C92_reason : C92_reason_claim.
Proof. exact reason_true. Qed.
Print Assumptions C92_reason.

Theorem C92_original_partial : C92_original_claim true.
Proof. exact original_true. Qed.
Print Assumptions C92_original_partial.

(** A set where a pointer becomes private: the node 2 contains a pointer (private)
    and memory accessed through the private pointer 1, the node 3 contains a
    variable and memory accessed through the pointer from the node 2. *)
Definition chain : list dnode :=
  [ DNode 1 [Loc None TPrivate] [] TPrivate;
    DNode 2 [Loc None TPrivate; Loc (Some 1) flow] [] flow;
    DNode 3 [Loc None (TOther 5); Loc (Some 2) flow] [] flow ].
Lemma chain_visits : forall o, Permutation o [1; 2; 3] -> visits o chain.
Proof. intros o H. split; [repeat constructor; cbn; intuition discriminate | exact H]. Qed.
Lemma perm_321 : Permutation [3; 2; 1] [1; 2; 3].
Proof. apply Permutation_sym. apply (Permutation_rev [1; 2; 3]). Qed.

(** A pointer which was not private at the beginning is used as private. *)
Theorem C92_original_refuted_changed : ~ C92_original_claim false.
Proof.
  intros H.
  destruct (H [1; 2; 3] chain (DNode 3 [Loc None (TOther 5); Loc (Some 2) flow] [] flow)
              (DNode 3 [Loc None (TOther 5); Loc (Some 2) flow] [] (TOther 5))
              (chain_visits _ (Permutation_refl _))) as [E | [main [[b [a [E [L J]]]] _]]].
  - split; [right; right; left; reflexivity | ]. split; [right; right; left; reflexivity | reflexivity].
  - discriminate.
  - discriminate E.
  - cbn [nLocs] in E.
    assert (I : In (Loc (Some 2) flow) (b ++ a)).
    { destruct b as [ | x b]; cbn [app] in E; injection E as <- E.
      - rewrite <- E. left. reflexivity.
      - destruct b as [ | y b]; cbn [app] in E; injection E as <- E; [discriminate L | ].
        destruct b; discriminate E. }
    destruct (J _ I) as [p [np [Lp [Hin [Hid T]]]]]. injection Lp as <-.
    destruct Hin as [<- | [<- | [<- | []]]]; discriminate.
Qed.
Print Assumptions C92_original_refuted_changed.

(** The result does not depend on the order of visits. *)
Theorem C92_order_partial : C92_order_claim true.
Proof. exact order_true. Qed.
Print Assumptions C92_order_partial.
(** The order of a hash table changes the result: the node 3 has a dependence or
    not. *)
Theorem C92_order_refuted_changed : ~ C92_order_claim false.
Proof.
  intros H.
  specialize (H [1; 2; 3] [3; 2; 1] chain (chain_visits _ (Permutation_refl _)) (chain_visits _ perm_321)
                ltac:(discriminate)).
  vm_compute in H. discriminate H.
Qed.
Print Assumptions C92_order_refuted_changed.

Theorem C92_unknown_partial : C92_unknown_claim true.
Proof. exact unknown_true. Qed.
Print Assumptions C92_unknown_partial.
Example C92_unknown_example :
  sanitize [1] [DNode 1 [Loc (Some 7) (TOther 5)] [flow] flow]
  = [DNode 1 [Loc (Some 7) flow] [flow] flow].
Proof. reflexivity. Qed.
(** A dependence of unknown memory (a function call) is dropped if there is a single
    location in the node. *)
Theorem C92_unknown_refuted_dropped : ~ C92_unknown_claim false.
Proof.
  intros H.
  destruct (H [1] [DNode 1 [Loc None (TOther 5)] [flow] flow] (DNode 1 [Loc None (TOther 5)] [flow] flow)
              (DNode 1 [Loc None (TOther 5)] [flow] (TOther 5)) flow) as [f [a [o [E _]]]].
  - split; [repeat constructor; intros [] | apply Permutation_refl].
  - split; [left; reflexivity | ]. split; [left; reflexivity | reflexivity].
  - exists true, false, false. split; [reflexivity | left; reflexivity].
  - left. reflexivity.
  - exists true, false, false. split; [reflexivity | left; reflexivity].
  - discriminate.
  - discriminate E.
Qed.
Print Assumptions C92_unknown_refuted_dropped.
