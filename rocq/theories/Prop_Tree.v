(** Property C21: relations of nodes of a tree and the lowest common ancestor. *)
From Coq Require Import ZArith Bool List Arith Lia Relations.
From Verif Require Import TreeModel TreeSpec TreeProof.
Import ListNotations.

(** ** Facts on ancestors *)
Section Anc.
Variable t : tree.
Hypothesis ND : NoDup (nodes t).
Lemma anc_pos a b : properAncestor t a b ->
  idx a (preorder t) < idx b (preorder t) /\ idx b (postorder t) < idx a (postorder t).
Proof. intro P. pose proof (anc_in _ _ _ P) as [A B]. now apply (anc_idx t ND a b A B). Qed.
Lemma anc_irrefl a : ~ properAncestor t a a.
Proof. intro P. apply anc_pos in P. lia. Qed.
Lemma anc_asym a b : properAncestor t a b -> ~ properAncestor t b a.
Proof. intros P Q. apply anc_pos in P, Q. lia. Qed.
Lemma anc_last a c : properAncestor t a c ->
  exists p, parentOf t p c /\ (a = p \/ properAncestor t a p).
Proof.
  intro P. apply clos_trans_tn1 in P. inversion P as [H|b ? H Q]; subst.
  - exists a. auto.
  - exists b. split; [exact H|]. right. now apply clos_tn1_trans.
Qed.
End Anc.
Lemma parent_unique t : NoDup (preorder t) ->
  forall p q c, parentOf t p c -> parentOf t q c -> p = q.
Proof.
  induction t as [l ks IH] using tree_induction. intros N p q c P Q.
  cbn in N. inversion N as [|? ? NL NF]; subst. rewrite Forall_forall in IH.
  assert (SUB : forall k, In k ks -> NoDup (preorder k)).
  { intros k K. clear - NF K. induction ks as [|j ks IK]; [destruct K|]. cbn in NF.
    apply NoDup_app_inv in NF. destruct NF as (A & B & _). destruct K as [->|K]; auto. }
  assert (X : forall r k, In k ks -> In c (map label ks) -> parentOf k r c -> False).
  { intros r k K I R. apply in_map_iff in I. destruct I as (k' & <- & K').
    assert (k' = k).
    { apply (forest_unique ks k' k (label k')); auto; [apply label_in|apply (parentOf_in k r _ R)]. }
    subst. assert (A : properAncestor k r (label k)) by now apply t_step.
    apply (anc_pos k (SUB k K)) in A. destruct k as [lk kk]. cbn in A. rewrite Nat.eqb_refl in A. lia. }
  apply parentOf_unfold in P, Q.
  destruct P as [[-> P]|(k1 & K1 & P)], Q as [[-> Q]|(k2 & K2 & Q)]; auto.
  - exfalso. eapply X; eauto.
  - exfalso. eapply X; eauto.
  - assert (k1 = k2).
    { apply (forest_unique ks k1 k2 c); auto; [apply (parentOf_in k1 p c P)|apply (parentOf_in k2 q c Q)]. }
    subst. eapply IH; eauto.
Qed.
Section Anc2.
Variable t : tree.
Hypothesis ND : NoDup (nodes t).
Lemma anc_parent a p c : parentOf t p c -> properAncestor t a c -> a = p \/ properAncestor t a p.
Proof.
  intros P A. apply anc_last in A. destruct A as (q & Q & H).
  assert (p = q) by (eapply parent_unique; eauto). subst. exact H.
Qed.
Lemma anc_linear a b c : properAncestor t a c -> properAncestor t b c ->
  a = b \/ properAncestor t a b \/ properAncestor t b a.
Proof.
  intro A. apply clos_trans_tn1 in A. induction A as [c P|p c P A IH]; intro B.
  - destruct (anc_parent b a c P B); auto.
  - apply clos_tn1_trans in A. destruct (anc_parent b p c P B) as [->|B']; auto.
Qed.

(** ** The relation *)
Section Run.
Variables children parents : nat -> list nat.
Hypothesis IT : isTree t children parents.
Variable fuel : nat.
Hypothesis FU : length (nodes t) <= fuel.
Variable size : Z.
Variable m : numbering.
Hypothesis RUN : numberGraph children fuel (label t) size = Some m.

Lemma numbers_at x : In x (nodes t) -> findNumbers m x =
  Some (mkNumbers (1 + zidx x (preorder t)) (size - zidx x (preorder t))
                  (1 + zidx x (postorder t)) (size - zidx x (postorder t))).
Proof.
  intro I. destruct IT as (_ & F & _).
  destruct (numberGraph_ok children t fuel size F ND FU) as (m' & E & M).
  rewrite RUN in E. inversion E; subst m'. rewrite M.
  destruct (in_dec Nat.eq_dec x (preorder t)) as [I1|I1]; [reflexivity|contradiction].
Qed.
Lemma compare_ok a b : In a (nodes t) -> In b (nodes t) ->
  exists r, compare m a b = Some r /\
    (r = TR_EQUAL <-> a = b) /\
    (r = TR_ANCESTOR <-> properAncestor t a b) /\
    (r = TR_DESCENDANT <-> properAncestor t b a) /\
    (r = TR_UNREACHABLE <-> a <> b /\ ~ properAncestor t a b /\ ~ properAncestor t b a).
Proof.
  intros A B. unfold compare. destruct (Nat.eqb_spec a b) as [->|NE].
  - exists TR_EQUAL. split; [reflexivity|]. pose proof (anc_irrefl t ND b).
    repeat split; try tauto; try discriminate.
  - rewrite (numbers_at a A), (numbers_at b B). cbn [numPre numRevPost].
    pose proof (anc_idx t ND a b A B) as AB. pose proof (anc_idx t ND b a B A) as BA.
    unfold zidx.
    destruct (Z.ltb_spec (1 + Z.of_nat (idx a (preorder t))) (1 + Z.of_nat (idx b (preorder t)))),
      (Z.ltb_spec (1 + Z.of_nat (idx b (preorder t))) (1 + Z.of_nat (idx a (preorder t)))),
      (Z.ltb_spec (size - Z.of_nat (idx a (postorder t))) (size - Z.of_nat (idx b (postorder t)))),
      (Z.ltb_spec (size - Z.of_nat (idx b (postorder t))) (size - Z.of_nat (idx a (postorder t))));
      try lia; cbn [andb]; eexists; (split; [reflexivity|]);
      (split; [split; [discriminate|congruence]|]);
      (split; [|split]); rewrite ?AB, ?BA; split; try discriminate; try reflexivity; try lia;
      intros; exfalso; lia.
Qed.
Lemma findParent_ok n : In n (nodes t) ->
  exists r, findParent parents m n = Some r /\ forall p, r = Some p <-> parentOf t p n.
Proof.
  intro N. destruct IT as (_ & _ & P). specialize (P n N). unfold findParent.
  destruct (parents n) as [|i ps] eqn:E.
  - exists None. split; [reflexivity|]. intro p. split; [discriminate|]. intro Q. now apply P in Q.
  - assert (PI : parentOf t i n) by (apply P; now left).
    exists (Some i). cbn. pose proof (parentOf_in _ _ _ PI) as [Ii _].
    destruct (compare_ok n i N Ii) as (r & C & _ & _ & D & _). rewrite C.
    assert (r = TR_DESCENDANT) by (apply D; now apply t_step). subst r. split; [reflexivity|].
    intro p. split; [intro Q; inversion Q; now subst|]. intro Q. f_equal. eapply parent_unique; eauto.
Qed.

Definition aboveOrSelf (y x : nat) : Prop := y = x \/ properAncestor t y x.
Lemma climb_ok f lca cur : In lca (nodes t) -> In cur (nodes t) ->
  idx lca (preorder t) < f ->
  exists r, climb parents f m lca cur = Some r /\
    match r with
    | None => forall y, aboveOrSelf y lca -> ~ properAncestor t y cur
    | Some (TR_ANCESTOR, x) => aboveOrSelf x lca /\ properAncestor t x cur /\
        forall y, aboveOrSelf y lca -> properAncestor t y cur -> aboveOrSelf y x
    | Some (TR_DESCENDANT, x) => properAncestor t cur lca
    | Some (_, x) => False
    end.
Proof.
  revert lca. induction f as [|f IH]; intros lca L C F; [lia|]. cbn [climb].
  destruct (compare_ok lca cur L C) as (r & E & EQ & AN & DE & UN). rewrite E.
  assert (UP : ~ properAncestor t lca cur -> ~ properAncestor t cur lca ->
    exists r, match findParent parents m lca with
      | None => None | Some None => Some None | Some (Some p) => climb parents f m p cur end = Some r /\
    match r with
    | None => forall y, aboveOrSelf y lca -> ~ properAncestor t y cur
    | Some (TR_ANCESTOR, x) => aboveOrSelf x lca /\ properAncestor t x cur /\
        forall y, aboveOrSelf y lca -> properAncestor t y cur -> aboveOrSelf y x
    | Some (TR_DESCENDANT, x) => properAncestor t cur lca
    | Some (_, x) => False
    end).
  { intros NA NC. destruct (findParent_ok lca L) as (q & Q & PQ). rewrite Q.
    destruct q as [p|].
    - pose proof (proj1 (PQ p) eq_refl) as PP. pose proof (parentOf_in _ _ _ PP) as [Ip _].
      assert (AP : properAncestor t p lca) by now apply t_step.
      destruct (IH p Ip C) as (r' & E' & S').
      { apply (anc_pos t ND) in AP. lia. }
      assert (UPP : forall y, aboveOrSelf y lca -> properAncestor t y cur -> aboveOrSelf y p).
      { intros y [->|Y] YC; [contradiction|]. destruct (anc_parent y p lca PP Y); unfold aboveOrSelf; auto. }
      exists r'. split; [exact E'|]. destruct r' as [[[] x]|]; auto.
      + destruct S' as (S1 & S2 & S3). split; [|split].
        * right. destruct S1 as [->|S1]; [exact AP|]. exact (t_trans _ _ _ _ _ S1 AP).
        * exact S2.
        * intros y Y YC. apply S3; auto.
      + exact (t_trans _ _ _ _ _ S' AP).
      + intros y Y YC. exact (S' y (UPP y Y YC) YC).
    - exists None. split; [reflexivity|]. intros y [->|Y] YC; [contradiction|].
      apply anc_last in Y. destruct Y as (p & PP & _). apply PQ in PP. discriminate. }
  destruct r.
  - pose proof (proj1 AN eq_refl) as A. eexists. split; [reflexivity|]. cbn.
    split; [now left|]. split; [exact A|]. auto.
  - pose proof (proj1 DE eq_refl) as A. eexists. split; [reflexivity|]. exact A.
  - assert (lca = cur) by now apply EQ. subst cur. apply UP; apply (anc_irrefl t ND).
  - destruct (proj1 UN eq_refl) as (_ & U1 & U2). now apply UP.
Qed.
Lemma lca_unique x y ns : lowestCommonAncestor t x ns -> lowestCommonAncestor t y ns -> x = y.
Proof.
  intros [A1 A2] [B1 B2]. destruct (A2 y B1) as [E|E]; [auto|]. destruct (B2 x A1) as [Q|Q]; [auto|].
  exfalso. eapply (anc_asym t ND); eauto.
Qed.
Lemma lcaLoop_ok rest : forall lca done, In lca (nodes t) ->
  (forall n, In n rest -> In n (nodes t)) -> done <> [] ->
  lowestCommonAncestor t lca done ->
  exists r, lcaLoop parents fuel m lca rest = Some r /\
    forall x, r = Some x <-> lowestCommonAncestor t x (done ++ rest).
Proof.
  induction rest as [|cur rest IH]; intros lca done L R NE LC; cbn [lcaLoop].
  - rewrite app_nil_r. exists (Some lca). split; [reflexivity|]. intro x. split.
    + intro E. inversion E; subst. exact LC.
    + intro H. f_equal. eapply lca_unique; eauto.
  - assert (C : In cur (nodes t)) by (apply R; now left).
    destruct (climb_ok fuel lca cur L C) as (r & E & S).
    { apply Nat.lt_le_trans with (length (nodes t)); [now apply idx_lt|exact FU]. }
    rewrite E. destruct LC as [LC1 LC2].
    assert (EX : forall d x, In x (nodes t) -> lowestCommonAncestor t x (done ++ [cur]) ->
      d = x ->
      exists r, lcaLoop parents fuel m d rest = Some r /\
        forall x, r = Some x <-> lowestCommonAncestor t x (done ++ cur :: rest)).
    { intros d x Ix H ->. destruct (IH x (done ++ [cur]) Ix) as (r' & E' & S').
      - intros; apply R; now right.
      - now destruct done.
      - exact H.
      - exists r'. split; [exact E'|]. rewrite <- app_assoc in S'. exact S'. }
    assert (NONE : (forall y, commonAncestor t y done -> ~ properAncestor t y cur) ->
      forall x, None = Some x <-> lowestCommonAncestor t x (done ++ cur :: rest)).
    { intros H x. split; [discriminate|]. intros [A _]. exfalso. apply (H x).
      - intros n I. apply A. apply in_app_iff. now left.
      - apply A. apply in_app_iff. right. now left. }
    destruct r as [[[] x]|]; try contradiction.
    + destruct S as (S1 & S2 & S3).
      apply (EX x x); [now apply anc_in in S2| |reflexivity]. split.
      * intros n I. apply in_app_iff in I. destruct I as [I|[<-|[]]]; [|exact S2].
        destruct S1 as [->|S1]; [now apply LC1|]. eapply t_trans; [exact S1|]. now apply LC1.
      * intros y Y. apply S3.
        -- apply LC2. intros n I. apply Y. apply in_app_iff. now left.
        -- apply Y. apply in_app_iff. right. now left.
    + destruct (findParent_ok cur C) as (q & Q & PQ). rewrite Q. destruct q as [p|].
      * pose proof (proj1 (PQ p) eq_refl) as PP. pose proof (parentOf_in _ _ _ PP) as [Ip _].
        apply (EX p p); [exact Ip| |reflexivity]. split.
        -- intros n I. apply in_app_iff in I. destruct I as [I|[<-|[]]]; [|now apply t_step].
           eapply t_trans; [apply t_step; exact PP|]. eapply t_trans; [exact S|]. now apply LC1.
        -- intros y Y. assert (YC : properAncestor t y cur).
           { apply Y. apply in_app_iff. right. now left. }
           exact (anc_parent y p cur PP YC).
      * exists None. split; [reflexivity|]. apply NONE. intros y _ YC.
        apply anc_last in YC. destruct YC as (p & PP & _). apply PQ in PP. discriminate.
    + exists None. split; [reflexivity|]. apply NONE. intros y Y YC. apply (S y); [|exact YC].
      now apply LC2.
Qed.
End Run.
End Anc2.

(** ** C21 *)

(** Nodes of a tree are numbered in preorder and postorder, from 1 up and from
    the size down. *)
Definition position (x : nat) (l : list nat) (p : Z) : Prop :=
  exists n, p = Z.of_nat n /\ nth_error l n = Some x.
Lemma idx_nth x l : In x l -> nth_error l (idx x l) = Some x.
Proof.
  induction l as [|y l IH]; cbn; [tauto|]. destruct (Nat.eqb_spec x y) as [->|NE]; [reflexivity|].
  intros [E|I]; [congruence|]. now apply IH.
Qed.
Theorem C21_numbering : forall t children parents size fuel,
  isTree t children parents -> length (nodes t) <= fuel ->
  exists m, numberGraph children fuel (label t) size = Some m /\
    (forall x, In x (nodes t) <-> findNumbers m x <> None) /\
    forall x v, findNumbers m x = Some v ->
      position x (preorder t) (numPre v - 1) /\ position x (preorder t) (size - numRevPre v) /\
      position x (postorder t) (numPost v - 1) /\ position x (postorder t) (size - numRevPost v).
Proof.
  intros t children parents size fuel (ND & F & _) FU.
  destruct (numberGraph_ok children t fuel size F ND FU) as (m & E & M). exists m.
  split; [exact E|]. split.
  - intro x. rewrite M. destruct (in_dec Nat.eq_dec x (preorder t)) as [I1|I1]; split; try tauto; discriminate.
  - intros x v. rewrite M. destruct (in_dec Nat.eq_dec x (preorder t)) as [I1|I1]; [|discriminate].
    intro Q.
    assert (V : v = mkNumbers (1 + zidx x (preorder t)) (size - zidx x (preorder t))
                              (1 + zidx x (postorder t)) (size - zidx x (postorder t))) by congruence.
    subst v. cbn [numPre numRevPre numPost numRevPost]. unfold zidx.
    assert (A : position x (preorder t) (Z.of_nat (idx x (preorder t)))).
    { eexists. split; [reflexivity|]. now apply idx_nth. }
    assert (B : position x (postorder t) (Z.of_nat (idx x (postorder t)))).
    { eexists. split; [reflexivity|]. apply idx_nth. now apply post_in. }
    assert (CA : forall z, z = Z.of_nat (idx x (preorder t)) -> position x (preorder t) z) by (intros z ->; exact A).
    assert (CB : forall z, z = Z.of_nat (idx x (postorder t)) -> position x (postorder t) z) by (intros z ->; exact B).
    split; [apply CA; lia|]. split; [apply CA; lia|]. split; apply CB; lia.
Qed.
(** The reported relation is the relation of the nodes in the tree. *)
Theorem C21_relation : forall t children parents size fuel m a b,
  isTree t children parents -> length (nodes t) <= fuel ->
  numberGraph children fuel (label t) size = Some m ->
  In a (nodes t) -> In b (nodes t) ->
  exists r, compare m a b = Some r /\
    (r = TR_EQUAL <-> a = b) /\
    (r = TR_ANCESTOR <-> properAncestor t a b) /\
    (r = TR_DESCENDANT <-> properAncestor t b a) /\
    (r = TR_UNREACHABLE <-> a <> b /\ ~ properAncestor t a b /\ ~ properAncestor t b a).
Proof.
  intros t ch ps size fuel m a b IT FU RUN. pose proof IT as (ND & _).
  exact (compare_ok t ND ch ps IT fuel FU size m RUN a b).
Qed.
Theorem C21_parent : forall t children parents size fuel m n,
  isTree t children parents -> length (nodes t) <= fuel ->
  numberGraph children fuel (label t) size = Some m -> In n (nodes t) ->
  exists r, findParent parents m n = Some r /\ forall p, r = Some p <-> parentOf t p n.
Proof.
  intros t ch ps size fuel m n IT FU RUN. pose proof IT as (ND & _).
  exact (findParent_ok t ND ch ps IT fuel FU size m RUN n).
Qed.
(** The lowest common ancestor is reported if and only if it exists. *)
Theorem C21_lowest_common_ancestor : forall t children parents size fuel m first rest,
  isTree t children parents -> length (nodes t) <= fuel ->
  numberGraph children fuel (label t) size = Some m ->
  (forall n, In n (first :: rest) -> In n (nodes t)) ->
  exists r, findLCA parents fuel m first rest = Some r /\
    forall x, r = Some x <-> lowestCommonAncestor t x (first :: rest).
Proof.
  intros t ch ps size fuel m first rest IT FU RUN R. pose proof IT as (ND & _).
  assert (FI : In first (nodes t)) by (apply R; now left).
  destruct (findParent_ok t ND ch ps IT fuel FU size m RUN first FI) as (q & Q & PQ).
  unfold findLCA. rewrite Q. destruct q as [p|].
  - pose proof (proj1 (PQ p) eq_refl) as PP. pose proof (parentOf_in _ _ _ PP) as [Ip _].
    apply (lcaLoop_ok t ND ch ps IT fuel FU size m RUN rest p [first]); auto.
    + intros n I. apply R. now right.
    + discriminate.
    + split.
      * intros n [<-|[]]. now apply t_step.
      * intros y Y. apply (anc_parent t ND y p first PP). apply Y. now left.
  - exists None. split; [reflexivity|]. intro x. split; [discriminate|]. intros [A _].
    assert (X : properAncestor t x first) by (apply A; now left).
    apply anc_last in X. destruct X as (p & PP & _). apply PQ in PP. discriminate.
Qed.
Print Assumptions C21_numbering.
Print Assumptions C21_relation.
Print Assumptions C21_parent.
Print Assumptions C21_lowest_common_ancestor.

(** A tree with seven nodes. *)
Definition sampleTree : tree :=
  Tree 1 [Tree 2 [Tree 4 []; Tree 5 []]; Tree 3 [Tree 6 [Tree 7 []]]].
Definition sampleChildren (n : nat) : list nat :=
  match n with 1 => [2; 3] | 2 => [4; 5] | 3 => [6] | 6 => [7] | _ => [] end.
Definition sampleParents (n : nat) : list nat :=
  match n with 2 => [1] | 3 => [1] | 4 => [2] | 5 => [2] | 6 => [3] | 7 => [6] | _ => [] end.
Example sample_isTree : isTree sampleTree sampleChildren sampleParents.
Proof.
  assert (S : forall s, subtree s sampleTree -> s = sampleTree \/
    s = Tree 2 [Tree 4 []; Tree 5 []] \/ s = Tree 4 [] \/ s = Tree 5 [] \/
    s = Tree 3 [Tree 6 [Tree 7 []]] \/ s = Tree 6 [Tree 7 []] \/ s = Tree 7 []).
  { intros s H. unfold sampleTree in *.
    repeat match goal with
    | H : subtree _ (Tree _ _) |- _ => inversion H; subst; clear H; [tauto|]
    | H : In _ (kids _) |- _ => cbn in H
    | H : _ \/ _ |- _ => destruct H as [H|H]; subst
    | H : False |- _ => destruct H
    end. }
  split; [|split].
  - repeat constructor; cbn; intuition discriminate.
  - intros s H. apply S in H. intuition; subst; reflexivity.
  - intros n I p. assert (P : parentOf sampleTree p n <->
      (p = 1 /\ (n = 2 \/ n = 3)) \/ (p = 2 /\ (n = 4 \/ n = 5)) \/ (p = 3 /\ n = 6) \/ (p = 6 /\ n = 7)).
    { split.
      - intros (s & H & L & K). apply S in H. cbn in *.
        destruct H as [H|[H|[H|[H|[H|[H|H]]]]]]; subst s; cbn in *; intuition.
      - intro H. unfold sampleTree. repeat rewrite parentOf_unfold. cbn.
        destruct H as [[-> [->| ->]]|[[-> [->| ->]]|[[-> ->]|[-> ->]]]].
        + left. auto.
        + left. auto.
        + right. eexists. split; [left; reflexivity|]. apply parentOf_unfold. cbn. auto.
        + right. eexists. split; [left; reflexivity|]. apply parentOf_unfold. cbn. auto.
        + right. eexists. split; [right; left; reflexivity|]. apply parentOf_unfold. cbn. auto.
        + right. eexists. split; [right; left; reflexivity|]. apply parentOf_unfold. cbn. right.
          eexists. split; [left; reflexivity|]. apply parentOf_unfold. cbn. auto. }
    rewrite P. cbn in I.
    destruct I as [<-|[<-|[<-|[<-|[<-|[<-|[<-|[]]]]]]]]; cbn; intuition; try discriminate.
Qed.
Example sample_queries : exists m, numberGraph sampleChildren 7 1 7 = Some m /\
  compare m 1 7 = Some TR_ANCESTOR /\ compare m 5 2 = Some TR_DESCENDANT /\
  compare m 5 7 = Some TR_UNREACHABLE /\
  findLCA sampleParents 7 m 4 [5] = Some (Some 2) /\
  findLCA sampleParents 7 m 7 [4] = Some (Some 1) /\
  findLCA sampleParents 7 m 7 [6] = Some (Some 3) /\
  findLCA sampleParents 7 m 7 [1] = Some None.
Proof. eexists. split; [vm_compute; reflexivity|]. vm_compute. repeat split. Qed.

(** The restriction to trees is necessary: in a graph with a node which has two
    predecessors the second visit of the node changes its number, and the
    spanning tree relation is wrong: 2 -> 4 is an edge of the spanning tree, but
    nodes 4 and 5 (its child) are reported to be unrelated. *)
Definition dagChildren (n : nat) : list nat :=
  match n with 1 => [2; 3] | 2 => [4] | 4 => [5] | 3 => [4] | _ => [] end.
Theorem tree_restriction_is_needed : exists m, numberGraph dagChildren 6 1 5 = Some m /\
  compare m 4 5 = Some TR_UNREACHABLE.
Proof. eexists. split; [vm_compute; reflexivity|]. vm_compute. reflexivity. Qed.
Print Assumptions tree_restriction_is_needed.
