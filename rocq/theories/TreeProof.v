From Coq Require Import ZArith Bool List Arith Lia Relations Permutation.
From Verif Require Import TreeModel TreeSpec.
Import ListNotations.

(** ** Trees *)
Lemma tree_induction (P : tree -> Prop) :
  (forall l ks, Forall P ks -> P (Tree l ks)) -> forall t, P t.
Proof.
  intro H. fix IH 1. intros [l ks]. apply H. induction ks as [|k ks IK]; constructor; auto.
Qed.
Lemma NoDup_app_inv {A} (l1 l2 : list A) :
  NoDup (l1 ++ l2) -> NoDup l1 /\ NoDup l2 /\ forall x, In x l1 -> ~ In x l2.
Proof.
  induction l1 as [|a l1 IH]; cbn; intro N.
  - split; [constructor|]. split; [exact N|]. intros x [].
  - inversion N; subst. destruct (IH H2) as (A1 & A2 & A3). rewrite in_app_iff in H1.
    split; [constructor; tauto|]. split; [exact A2|]. intros x [->|I]; [tauto|auto].
Qed.
Lemma label_in t : In (label t) (preorder t).
Proof. destruct t. now left. Qed.
Lemma pre_post t : Permutation (preorder t) (postorder t).
Proof.
  induction t as [l ks IH] using tree_induction. cbn.
  rewrite Permutation_app_comm. cbn. constructor.
  induction IH as [|k ks Q _ R]; cbn; [constructor|]. now apply Permutation_app.
Qed.
Lemma pre_post_forest ks : Permutation (flat_map preorder ks) (flat_map postorder ks).
Proof. induction ks as [|k ks R]; cbn; [constructor|]. apply Permutation_app; [apply pre_post|exact R]. Qed.
Lemma post_in t x : In x (postorder t) <-> In x (preorder t).
Proof. split; apply Permutation_in; [symmetry|]; apply pre_post. Qed.
Lemma post_in_forest ks x : In x (flat_map postorder ks) <-> In x (flat_map preorder ks).
Proof. split; apply Permutation_in; [symmetry|]; apply pre_post_forest. Qed.
Lemma subtree_in s t x : subtree s t -> In x (preorder s) -> In x (preorder t).
Proof.
  induction 1 as [|s k t K _ IH]; [auto|]. intro I. apply IH in I. destruct t as [l ks]. cbn in *.
  right. apply in_flat_map. eauto.
Qed.
Lemma parentOf_in t p c : parentOf t p c -> In p (preorder t) /\ In c (preorder t).
Proof.
  intros (s & S & L & I). split.
  - subst. eapply subtree_in; eauto. apply label_in.
  - eapply subtree_in; eauto. apply in_map_iff in I. destruct I as (k & <- & I).
    destruct s as [l ks]. cbn in *. right. apply in_flat_map. exists k. split; [exact I|apply label_in].
Qed.
Lemma parentOf_unfold l ks p c :
  parentOf (Tree l ks) p c <->
  (p = l /\ In c (map label ks)) \/ exists k, In k ks /\ parentOf k p c.
Proof.
  split.
  - intros (s & S & L & I). inversion S as [|s' k t K S']; subst.
    + left. cbn in *. auto.
    + right. exists k. split; [exact K|]. exists s. auto.
  - intros [[-> I]|(k & K & s & S & L & I)].
    + exists (Tree l ks). split; [constructor|]. auto.
    + exists s. split; [|auto]. econstructor; eauto.
Qed.
Lemma anc_in t a b : properAncestor t a b -> In a (preorder t) /\ In b (preorder t).
Proof.
  induction 1 as [a b P|a b c _ [A B] _ [C D]]; [now apply parentOf_in|auto].
Qed.
Lemma root_anc t x : In x (preorder t) -> x = label t \/ properAncestor t (label t) x.
Proof.
  induction t as [l ks IH] using tree_induction. cbn. intros [->|I]; [auto|]. right.
  apply in_flat_map in I. destruct I as (k & K & I). rewrite Forall_forall in IH.
  destruct (IH k K I) as [->|A].
  - apply t_step. apply parentOf_unfold. left. split; [reflexivity|]. now apply in_map.
  - apply t_trans with (label k).
    + apply t_step. apply parentOf_unfold. left. split; [reflexivity|]. now apply in_map.
    + clear - A K. induction A as [a b P|a b c _ A _ B].
      * apply t_step. apply parentOf_unfold. eauto.
      * eapply t_trans; eauto.
Qed.
Lemma forest_unique ks k1 k2 x : NoDup (flat_map preorder ks) -> In k1 ks -> In k2 ks ->
  In x (preorder k1) -> In x (preorder k2) -> k1 = k2.
Proof.
  induction ks as [|k ks IH]; cbn; [tauto|]. intro N. apply NoDup_app_inv in N.
  destruct N as (N1 & N2 & N3). intros [->|I] [->|J] X1 X2; auto.
  - exfalso. apply (N3 x X1). apply in_flat_map. eauto.
  - exfalso. apply (N3 x X2). apply in_flat_map. eauto.
Qed.
Lemma anc_unfold l ks a b : NoDup (preorder (Tree l ks)) ->
  properAncestor (Tree l ks) a b <->
  (a = l /\ In b (flat_map preorder ks)) \/ exists k, In k ks /\ properAncestor k a b.
Proof.
  intro N. cbn in N. inversion N as [|? ? NL ND]; subst. split.
  - intro H. induction H as [a b P|a b c _ H1 _ H2].
    + apply parentOf_unfold in P. destruct P as [[-> I]|(k & K & P)].
      * left. split; [reflexivity|]. apply in_map_iff in I. destruct I as (k & <- & K).
        apply in_flat_map. exists k. split; [exact K|apply label_in].
      * right. exists k. split; [exact K|]. now apply t_step.
    + destruct H1 as [[-> I]|(k & K & A)].
      * left. split; [reflexivity|]. destruct H2 as [[-> _]|(k2 & K2 & A2)]; [contradiction|].
        apply in_flat_map. exists k2. split; [exact K2|]. now apply anc_in in A2.
      * right. pose proof (anc_in _ _ _ A) as [_ B]. destruct H2 as [[-> _]|(k2 & K2 & A2)].
        -- exfalso. apply NL. apply in_flat_map. eauto.
        -- pose proof (anc_in _ _ _ A2) as [B2 _].
           assert (k = k2) by (eapply forest_unique; eauto). subst.
           exists k2. split; [exact K|]. eapply t_trans; eauto.
  - intros [[-> I]|(k & K & A)].
    + destruct (root_anc (Tree l ks) b) as [->|A]; [now right|contradiction|exact A].
    + induction A as [a b P|a b c _ A1 _ A2]; [apply t_step; apply parentOf_unfold; eauto|].
      eapply t_trans; eauto.
Qed.

(** ** Positions *)
Fixpoint idx (x : nat) (l : list nat) : nat :=
  match l with [] => 0 | y :: l => if Nat.eqb x y then 0 else S (idx x l) end.
Lemma idx_lt x l : In x l <-> idx x l < length l.
Proof.
  induction l as [|y l IH]; cbn; [lia|]. destruct (Nat.eqb_spec x y) as [->|NE].
  - split; [lia|auto].
  - rewrite <- Nat.succ_lt_mono, <- IH. split; [intros [E|I]; [congruence|exact I]|auto].
Qed.
Lemma idx_app_l x l1 l2 : In x l1 -> idx x (l1 ++ l2) = idx x l1.
Proof.
  induction l1 as [|y l1 IH]; cbn; [tauto|]. destruct (Nat.eqb_spec x y); [reflexivity|].
  intros [E|I]; [congruence|]. now rewrite IH.
Qed.
Lemma idx_app_r x l1 l2 : ~ In x l1 -> idx x (l1 ++ l2) = length l1 + idx x l2.
Proof.
  induction l1 as [|y l1 IH]; cbn; [reflexivity|]. intro N.
  destruct (Nat.eqb_spec x y); [exfalso; apply N; auto|]. rewrite IH; tauto.
Qed.
Lemma idx_inj x y l : In x l -> idx x l = idx y l -> x = y.
Proof.
  induction l as [|z l IH]; cbn; [tauto|].
  destruct (Nat.eqb_spec x z), (Nat.eqb_spec y z); subst; auto; try discriminate.
  intros [E|I] Q; [congruence|]. inversion Q. auto.
Qed.
Lemma len_post t : length (postorder t) = length (preorder t).
Proof. symmetry. apply Permutation_length, pre_post. Qed.
Lemma len_post_forest ks : length (flat_map postorder ks) = length (flat_map preorder ks).
Proof. symmetry. apply Permutation_length, pre_post_forest. Qed.

Definition ancIdx (t : tree) : Prop := NoDup (preorder t) ->
  forall a b, In a (preorder t) -> In b (preorder t) ->
  (properAncestor t a b <->
   (idx a (preorder t) < idx b (preorder t) /\ idx b (postorder t) < idx a (postorder t))).
Lemma anc_forest_idx ks : Forall ancIdx ks -> NoDup (flat_map preorder ks) ->
  forall a b, In a (flat_map preorder ks) -> In b (flat_map preorder ks) ->
  ((exists k, In k ks /\ properAncestor k a b) <->
   (idx a (flat_map preorder ks) < idx b (flat_map preorder ks) /\
    idx b (flat_map postorder ks) < idx a (flat_map postorder ks))).
Proof.
  induction 1 as [|k ks Q F IH]; cbn [flat_map]; intros N a b; [intros []|].
  apply NoDup_app_inv in N. destruct N as (N1 & N2 & N3).
  assert (PI : forall x, In x (flat_map preorder ks) -> ~ In x (postorder k)).
  { intros x I J. apply post_in in J. exact (N3 x J I). }
  assert (PJ : forall x, In x (preorder k) -> In x (postorder k)) by (intros; now apply post_in).
  rewrite !in_app_iff. intros [A|A] [B|B].
  - rewrite !idx_app_l by auto. rewrite <- (Q N1 a b A B). split.
    + intros (k' & [<-|K] & P); [exact P|]. exfalso. apply (N3 a A). apply in_flat_map.
      exists k'. split; [exact K|]. now apply anc_in in P.
    + intro P. exists k. split; [now left|exact P].
  - rewrite (idx_app_l a) by auto. rewrite (idx_app_r b) by (intro J; exact (N3 b J B)).
    rewrite (idx_app_r b) by auto. rewrite (idx_app_l a) by auto.
    pose proof (proj1 (idx_lt a (postorder k)) (PJ a A)). split; [|lia].
    intros (k' & [<-|K] & P); apply anc_in in P.
    + exfalso. apply (N3 b); tauto.
    + exfalso. apply (N3 a A). apply in_flat_map. exists k'. tauto.
  - rewrite (idx_app_l b) by auto. rewrite (idx_app_r a) by (intro J; exact (N3 a J A)).
    pose proof (proj1 (idx_lt b (preorder k)) B). split; [|lia].
    intros (k' & [<-|K] & P); apply anc_in in P.
    + exfalso. apply (N3 a); tauto.
    + exfalso. apply (N3 b B). apply in_flat_map. exists k'. tauto.
  - rewrite !(idx_app_r) by (auto; intro J; eapply N3; eauto).
    assert (X : forall u v w, u + v < u + w <-> v < w) by lia. rewrite !X.
    rewrite <- (IH N2 a b A B). split.
    + intros (k' & [<-|K] & P); [|eauto]. apply anc_in in P. exfalso. apply (N3 a); tauto.
    + intros (k' & K & P). exists k'. split; [now right|exact P].
Qed.
Lemma anc_idx t : ancIdx t.
Proof.
  induction t as [l ks IH] using tree_induction. intros N a b.
  rewrite (anc_unfold l ks a b N). cbn in N. inversion N as [|? ? NL ND]; subst.
  assert (NLE : ~ In l (flat_map postorder ks)) by (rewrite post_in_forest; exact NL).
  cbn [preorder postorder]. cbn [In idx].
  assert (IL : idx l (flat_map postorder ks ++ [l]) = length (flat_map postorder ks)).
  { rewrite idx_app_r by exact NLE. cbn. rewrite Nat.eqb_refl. lia. }
  intros A B.
  destruct (Nat.eqb_spec a l) as [->|NA], (Nat.eqb_spec b l) as [->|NB].
  - split; [|lia]. intros [[_ I]|(k & K & P)]; [contradiction|]. exfalso. apply NL.
    apply in_flat_map. exists k. split; [exact K|]. now apply anc_in in P.
  - destruct B as [B|B]; [congruence|]. split; [|auto]. intros _. split; [lia|]. rewrite IL.
    rewrite idx_app_l by now apply post_in_forest. apply idx_lt. now apply post_in_forest.
  - split; [|lia]. intros [[E _]|(k & K & P)]; [congruence|]. exfalso. apply NL.
    apply in_flat_map. exists k. split; [exact K|]. now apply anc_in in P.
  - destruct A as [A|A]; [congruence|]. destruct B as [B|B]; [congruence|].
    rewrite !idx_app_l by now apply post_in_forest.
    rewrite <- Nat.succ_lt_mono. rewrite <- (anc_forest_idx ks IH ND a b A B).
    split; [intros [[E _]|H]; [congruence|exact H]|auto].
Qed.

(** ** Traversal *)
Section Visit.
Open Scope Z_scope.
Variable children : nat -> list nat.

Definition numOf (m : numbering) (n : nat) : numbers :=
  match findNumbers m n with Some v => v | None => noNumbers end.
Lemma find_update m n f k :
  findNumbers (updateNumbers m n f) k =
  if Nat.eqb k n then Some (f (numOf m n)) else findNumbers m k.
Proof.
  unfold numOf. induction m as [|[j v] m IH]; cbn.
  - now destruct (Nat.eqb k n).
  - destruct (Nat.eqb_spec n j) as [->|NJ]; cbn.
    + destruct (Nat.eqb k j); reflexivity.
    + rewrite IH. destruct (Nat.eqb_spec k j) as [E1|E1], (Nat.eqb_spec k n) as [E2|E2]; auto.
      congruence.
Qed.

Definition goF (v : nat -> dfset -> option dfset) (n : nat) :=
  fix go (cs : list nat) (s : dfset) : option dfset :=
    match cs with
    | [] => Some (dfCompleted s n)
    | c :: cs =>
      let '(s1, isNew) := dfInsert s c in
      if isNew then match v c s1 with None => None | Some s2 => go cs s2 end
      else go cs s1
    end.
Lemma dfVisit_unfold f n s : dfVisit children (S f) n s = goF (dfVisit children f) n (children n) s.
Proof. reflexivity. Qed.

Definition zlen (l : list nat) : Z := Z.of_nat (length l).
Definition zidx (x : nat) (l : list nat) : Z := Z.of_nat (idx x l).
Definition advance (c : numbers) (d e : Z) : numbers :=
  mkNumbers (numPre c + d) (numRevPre c - d) (numPost c + e) (numRevPost c - e).
(* effect of numbering a sequence of trees *)
Definition forestPost (ks : list tree) (s s' : dfset) : Prop :=
  let D := flat_map preorder ks in let E := flat_map postorder ks in
  (forall x, In x (dfVisited s') <-> In x (dfVisited s) \/ In x D) /\
  dfLast s' = advance (dfLast s) (zlen D) (zlen E) /\
  forall x, findNumbers (dfMap s') x =
    if in_dec Nat.eq_dec x D then
      Some (mkNumbers (numPre (dfLast s) + zidx x D) (numRevPre (dfLast s) - zidx x D)
                      (numPost (dfLast s) + zidx x E) (numRevPost (dfLast s) - zidx x E))
    else findNumbers (dfMap s) x.
Definition treePost (t : tree) (s s' : dfset) : Prop :=
  let D := preorder t in let E := postorder t in
  (forall x, In x (dfVisited s') <-> In x (dfVisited s) \/ In x D) /\
  dfLast s' = advance (dfLast s) (zlen D - 1) (zlen E) /\
  forall x, findNumbers (dfMap s') x =
    if in_dec Nat.eq_dec x D then
      Some (mkNumbers (numPre (dfLast s) - 1 + zidx x D) (numRevPre (dfLast s) + 1 - zidx x D)
                      (numPost (dfLast s) + zidx x E) (numRevPost (dfLast s) - zidx x E))
    else findNumbers (dfMap s) x.
Definition fits (t : tree) : Prop :=
  forall s, subtree s t -> children (label s) = map label (kids s).
Definition visitOk (t : tree) : Prop := fits t -> NoDup (preorder t) ->
  forall fuel s, (length (preorder t) <= fuel)%nat ->
  In (label t) (dfVisited s) ->
  (forall x, In x (flat_map preorder (kids t)) -> ~ In x (dfVisited s)) ->
  numPre (numOf (dfMap s) (label t)) = numPre (dfLast s) - 1 ->
  numRevPre (numOf (dfMap s) (label t)) = numRevPre (dfLast s) + 1 ->
  exists s', dfVisit children fuel (label t) s = Some s' /\ treePost t s s'.

Lemma insert_new s c : ~ In c (dfVisited s) ->
  dfInsert s c = (mkSet (c :: dfVisited s)
     (updateNumbers (dfMap s) c (fun v =>
        mkNumbers (numPre (dfLast s)) (numRevPre (dfLast s)) (numPost v) (numRevPost v)))
     (mkNumbers (numPre (dfLast s) + 1) (numRevPre (dfLast s) - 1) (numPost (dfLast s)) (numRevPost (dfLast s))), true).
Proof.
  intro N. unfold dfInsert. destruct (existsb (Nat.eqb c) (dfVisited s)) eqn:E; [|reflexivity].
  apply existsb_exists in E. destruct E as (y & I & Q). apply Nat.eqb_eq in Q. subst. contradiction.
Qed.
Lemma numbers_eq a b c d a' b' c' d' : a = a' -> b = b' -> c = c' -> d = d' ->
  mkNumbers a b c d = mkNumbers a' b' c' d'.
Proof. intros; subst; reflexivity. Qed.
Lemma some_eq {A} (x y : A) : x = y -> Some x = Some y.
Proof. intros ->. reflexivity. Qed.
Lemma go_forest n f ks : Forall visitOk ks -> Forall fits ks -> NoDup (flat_map preorder ks) ->
  (forall k, In k ks -> (length (preorder k) <= f)%nat) ->
  forall s, (forall x, In x (flat_map preorder ks) -> ~ In x (dfVisited s)) ->
  exists s', goF (dfVisit children f) n (map label ks) s = Some (dfCompleted s' n) /\ forestPost ks s s'.
Proof.
  intros V. induction V as [|k ks VK V IH]; intros F N L s D; cbn [map].
  - exists s. split; [reflexivity|]. split; [|split].
    + intro x. cbn. tauto.
    + destruct (dfLast s) as [a b c d] eqn:E. unfold advance, zlen. cbn. apply numbers_eq; lia.
    + intro x. cbn [flat_map]. destruct (in_dec Nat.eq_dec x []) as [I1|I1]; [destruct I1|reflexivity].
  - inversion F as [|? ? FK FR]; subst. cbn [flat_map] in N. apply NoDup_app_inv in N.
    destruct N as (N1 & N2 & N3).
    assert (NEW : ~ In (label k) (dfVisited s)).
    { apply D. cbn. apply in_app_iff. left. apply label_in. }
    cbn [goF]. rewrite (insert_new s (label k) NEW). cbn beta iota.
    set (s1 := mkSet _ _ _).
    assert (NK : NoDup (preorder k)) by exact N1.
    assert (PK : preorder k = label k :: flat_map preorder (kids k)) by (destruct k; reflexivity).
    destruct (VK FK N1 f s1) as (s2 & E2 & P2).
    { apply L. now left. }
    { now left. }
    { intros x I [Q|J].
      - subst x. rewrite PK in N1. inversion N1; contradiction.
      - apply (D x); [|exact J]. cbn. apply in_app_iff. left. rewrite PK. now right. }
    { unfold numOf, s1. cbn [dfMap dfLast numPre]. rewrite find_update, Nat.eqb_refl. cbn. lia. }
    { unfold numOf, s1. cbn [dfMap dfLast numRevPre]. rewrite find_update, Nat.eqb_refl. cbn. lia. }
    rewrite E2. destruct P2 as (V2 & L2 & M2).
    destruct (IH FR N2) with (s := s2) as (s3 & E3 & P3).
    { intros; apply L; now right. }
    { intros x I J. apply V2 in J. destruct J as [[J|J]|J].
      - subst x. apply (N3 (label k)); [apply label_in|exact I].
      - apply (D x); [|exact J]. cbn. apply in_app_iff. now right.
      - exact (N3 x J I). }
    exists s3. split; [exact E3|]. destruct P3 as (V3 & L3 & M3).
    unfold advance, zlen, zidx in *. unfold s1 in V2, L2, M2.
    cbn [dfVisited dfLast dfMap numPre numRevPre numPost numRevPost] in V2, L2, M2.
    rewrite L2 in L3, M3. cbn [numPre numRevPre numPost numRevPost] in L3, M3.
    unfold forestPost. cbn [flat_map]. split; [|split].
    + intro x. rewrite V3, V2. cbn. rewrite in_app_iff. split.
      * intros [[[<-|H]|H]|H]; auto. right. left. apply label_in.
      * tauto.
    + rewrite L3. unfold advance, zlen. rewrite !app_length. apply numbers_eq; lia.
    + intro x. rewrite M3, M2. unfold zidx.
      pose proof (len_post k) as LP.
      destruct (in_dec Nat.eq_dec x (flat_map preorder ks)) as [I1|I1],
               (in_dec Nat.eq_dec x (preorder k ++ flat_map preorder ks)) as [I2|I2].
      * assert (NX : ~ In x (preorder k)) by (intro J; exact (N3 x J I1)).
        assert (NY : ~ In x (postorder k)) by (rewrite post_in; exact NX).
        rewrite !idx_app_r by assumption. apply some_eq, numbers_eq; lia.
      * exfalso. apply I2. apply in_app_iff. now right.
      * destruct (in_dec Nat.eq_dec x (preorder k)) as [I3|I3].
        -- rewrite !idx_app_l by (auto; now apply post_in). apply some_eq, numbers_eq; lia.
        -- exfalso. apply in_app_iff in I2. tauto.
      * destruct (in_dec Nat.eq_dec x (preorder k)) as [I3|I3].
        -- exfalso. apply I2. apply in_app_iff. now left.
        -- rewrite find_update. destruct (Nat.eqb_spec x (label k)) as [->|NE]; [|reflexivity].
           exfalso. apply I3. apply label_in.
Qed.
Lemma visit_ok t : visitOk t.
Proof.
  induction t as [l ks IH] using tree_induction. intros F N fuel s L V D P1 P2.
  cbn [label kids] in *. cbn [preorder] in N. inversion N as [|? ? NL ND]; subst.
  cbn [preorder length] in L. destruct fuel as [|f]; [lia|]. rewrite dfVisit_unfold.
  pose proof (F (Tree l ks) (subSelf _)) as CH. cbn [label kids] in CH. rewrite CH.
  destruct (go_forest l f ks IH) with (s := s) as (s1 & E1 & PF); auto.
  { apply Forall_forall. intros k K u U. apply F. econstructor; eauto. }
  { intros k K.
    assert (Q : (length (preorder k) <= length (flat_map preorder ks))%nat).
    { clear - K. induction ks as [|j ks IK]; [destruct K|]. cbn. rewrite app_length.
      destruct K as [->|K]; [lia|]. specialize (IK K). lia. }
    lia. }
  exists (dfCompleted s1 l). split; [exact E1|]. destruct PF as (V1 & L1 & M1).
  unfold treePost, dfCompleted. cbn [dfVisited dfLast dfMap preorder postorder].
  unfold advance, zlen, zidx in *. rewrite L1. cbn [numPre numRevPre numPost numRevPost].
  assert (LL := len_post_forest ks). split; [|split].
  - intro x. rewrite V1. cbn. split; [intros [H|H]; auto|]. intros [H|[<-|H]]; auto.
  - rewrite app_length. cbn [length]. apply numbers_eq; lia.
  - intro x. rewrite find_update. cbn [idx].
    assert (NLE : ~ In l (flat_map postorder ks)) by (rewrite post_in_forest; exact NL).
    destruct (Nat.eqb_spec x l) as [->|NE].
    + destruct (in_dec Nat.eq_dec l (l :: flat_map preorder ks)) as [I2|I2].
      * assert (Q : numOf (dfMap s1) l = numOf (dfMap s) l).
        { unfold numOf. rewrite M1. destruct (in_dec Nat.eq_dec l (flat_map preorder ks)) as [I3|I3]; [contradiction|].
          reflexivity. }
        rewrite Q, P1, P2. rewrite idx_app_r by exact NLE. cbn [idx]. rewrite Nat.eqb_refl.
        apply some_eq, numbers_eq; lia.
      * exfalso. apply I2. now left.
    + rewrite M1. destruct (in_dec Nat.eq_dec x (flat_map preorder ks)) as [I1|I1],
        (in_dec Nat.eq_dec x (l :: flat_map preorder ks)) as [I2|I2].
      * rewrite idx_app_l by now apply post_in_forest. apply some_eq, numbers_eq; lia.
      * exfalso. apply I2. now right.
      * destruct I2 as [I2|I2]; [congruence|contradiction].
      * reflexivity.
Qed.
Lemma numberGraph_ok t fuel size : fits t -> NoDup (preorder t) ->
  (length (preorder t) <= fuel)%nat ->
  exists m, numberGraph children fuel (label t) size = Some m /\
    forall x, findNumbers m x =
      if in_dec Nat.eq_dec x (preorder t) then
        Some (mkNumbers (1 + zidx x (preorder t)) (size - zidx x (preorder t))
                        (1 + zidx x (postorder t)) (size - zidx x (postorder t)))
      else None.
Proof.
  intros F N L. unfold numberGraph.
  assert (NEW : ~ In (label t) (dfVisited (newSet size))) by (intros []).
  rewrite (insert_new (newSet size) (label t) NEW). cbn [fst].
  set (s := mkSet _ _ _).
  assert (PK : preorder t = label t :: flat_map preorder (kids t)) by (destruct t; reflexivity).
  destruct (visit_ok t F N fuel s L) as (s' & E & V & LA & M).
  { now left. }
  { intros x I [Q|[]]. subst x. rewrite PK in N. inversion N; contradiction. }
  { unfold numOf, s. cbn. rewrite Nat.eqb_refl. cbn. lia. }
  { unfold numOf, s. cbn. rewrite Nat.eqb_refl. cbn. lia. }
  rewrite E. cbn [option_map]. eexists. split; [reflexivity|]. intro x. rewrite M.
  unfold s. cbn [dfLast numPre numRevPre numPost numRevPost newSet dfMap].
  destruct (in_dec Nat.eq_dec x (preorder t)) as [I1|I1].
  - apply some_eq, numbers_eq; lia.
  - rewrite find_update. destruct (Nat.eqb_spec x (label t)) as [->|NE]; [|reflexivity].
    exfalso. apply I1, label_in.
Qed.
End Visit.
