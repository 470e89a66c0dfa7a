(** Proofs for C91. *)
From Coq Require Import PeanoNat Bool List Lia.
From Verif Require Import CoverageModel CoverageSpec.
Import ListNotations.

(** Induction over trees. *)
Lemma atree_ind' : forall P : atree -> Prop,
  (forall i cs, (forall c, In c cs -> P c) -> P (ANode i cs)) -> forall t, P t.
Proof.
  intros P H. fix IH 1. intros [i cs]. apply H. induction cs as [ | c cs IHc].
  - intros c [].
  - intros c' [<- | Hc]; [apply IH | exact (IHc c' Hc)].
Qed.

(** Both functions are instances of one scheme: [sel] selects a node, [stop] cuts
    a subtree. *)
Fixpoint gen (sel stop : nat -> bool) (n : atree) : list nat :=
  match n with
  | ANode i cs => if sel i then [i] else if stop i then [] else flat_map (gen sel stop) cs
  end.

Lemma flat_map_ext_in : forall {A B} (f g : A -> list B) l,
  (forall x, In x l -> f x = g x) -> flat_map f l = flat_map g l.
Proof.
  intros A B f g l H. induction l as [ | x l IH]; [reflexivity | ]. cbn [flat_map].
  rewrite (H x (or_introl eq_refl)). rewrite IH; [reflexivity | ]. intros y Hy. apply H. right. exact Hy.
Qed.

Definition aSel (ign : bool) (ds : depset) (i : nat) : bool :=
  match ds i with Some t => tNoRedundant t || (negb ign && tRedundant t) | None => false end.
Definition aStop (ds : depset) (i : nat) : bool := match ds i with Some _ => false | None => true end.
Definition eSel (ign : bool) (ds : depset) (i : nat) : bool :=
  match ds i with Some t => tExplicit t && (negb ign || tNoRedundant t) | None => false end.

Lemma access_gen : forall ign ds t, accessCoverage ign ds t = gen (aSel ign ds) (aStop ds) t.
Proof.
  intros ign ds. induction t as [i cs IH] using atree_ind'. cbn [accessCoverage gen]. unfold aSel at 1, aStop at 1.
  destruct (ds i) as [x | ]; [ | reflexivity].
  destruct (tNoRedundant x || negb ign && tRedundant x); [reflexivity | ]. apply flat_map_ext_in. exact IH.
Qed.
Lemma explicit_gen : forall ign ds t, explicitCoverage ign ds t = gen (eSel ign ds) (fun _ => false) t.
Proof.
  intros ign ds. induction t as [i cs IH] using atree_ind'. cbn [explicitCoverage gen]. unfold eSel at 1.
  destruct (ds i) as [x | ]; [ | apply flat_map_ext_in; exact IH].
  destruct (tExplicit x); destruct ign; destruct (tNoRedundant x); cbn [negb orb andb];
    try reflexivity; apply flat_map_ext_in; exact IH.
Qed.
Lemma accessed_sel : forall ign ds i, accessed ign ds i <-> aSel ign ds i = true.
Proof.
  intros ign ds i. unfold accessed, aSel. destruct (ds i) as [x | ].
  - rewrite orb_true_iff, andb_true_iff, negb_true_iff. split.
    + intros [t [E H]]. injection E as <-. exact H.
    + intros H. exists x. split; [reflexivity | exact H].
  - split; [intros [t [E _]]; discriminate E | discriminate].
Qed.
Lemma explicitly_sel : forall ign ds i, explicitly ign ds i <-> eSel ign ds i = true.
Proof.
  intros ign ds i. unfold explicitly, eSel. destruct (ds i) as [x | ].
  - rewrite andb_true_iff, orb_true_iff, negb_true_iff. split.
    + intros [t [E [H1 H2]]]. injection E as <-. split; [exact H1 | ].
      destruct ign; [right; apply H2; reflexivity | left; reflexivity].
    + intros [H1 H2]. exists x. split; [reflexivity | ]. split; [exact H1 | ]. intros ->.
      destruct H2 as [H2 | H2]; [discriminate H2 | exact H2].
  - split; [intros [t [E _]]; discriminate E | discriminate].
Qed.

(** * Trees *)
Lemma sub_trans : forall a b c, sub a b -> sub b c -> sub a c.
Proof. intros a b c H. revert c. induction H; intros d Hd; [exact Hd | ]. apply sub_child with (c := c); auto. Qed.
Lemma inside_root : forall t, inside t (root t).
Proof. intros t. exists t. split; [apply sub_self | reflexivity]. Qed.
Lemma inside_node : forall i cs j, inside (ANode i cs) j <-> j = i \/ exists c, In c cs /\ inside c j.
Proof.
  intros i cs j. split.
  - intros [a [H E]]. inversion H; subst.
    + left. reflexivity.
    + right. exists c. split; [assumption | ]. exists a. split; [assumption | reflexivity].
  - intros [-> | [c [Hc [a [H E]]]]]; [apply (inside_root (ANode i cs)) | ].
    exists a. split; [apply sub_child with (c := c); assumption | exact E].
Qed.
Lemma contains_root : forall t j, inside t j -> contains t (root t) j.
Proof. intros t j H. exists t. split; [apply sub_self | ]. split; [reflexivity | exact H]. Qed.
Lemma contains_child : forall i cs c a j, In c cs -> contains c a j -> contains (ANode i cs) a j.
Proof.
  intros i cs c a j Hc [b [H1 H2]]. exists b. split; [apply sub_child with (c := c); assumption | exact H2].
Qed.
Lemma contains_node : forall i cs a j, contains (ANode i cs) a j ->
  (a = i /\ inside (ANode i cs) j) \/ exists c, In c cs /\ contains c a j.
Proof.
  intros i cs a j [b [H1 [H2 H3]]]. inversion H1; subst.
  - left. split; [reflexivity | exact H3].
  - right. exists c. split; [assumption | ]. exists b. split; [assumption | ]. split; [reflexivity | exact H3].
Qed.
Lemma contains_inside : forall t i j, contains t i j -> inside t i /\ inside t j.
Proof.
  intros t i j [b [H1 [H2 [c [H3 H4]]]]]. split; [exists b; split; assumption | ].
  exists c. split; [exact (sub_trans _ _ _ H1 H3) | exact H4].
Qed.
Lemma inside_numbers : forall t i, inside t i <-> In i (numbers t).
Proof.
  induction t as [n cs IH] using atree_ind'. intros i. rewrite inside_node. cbn [numbers]. cbn [In].
  rewrite in_flat_map. split.
  - intros [-> | [c [Hc H]]]; [left; reflexivity | right]. exists c. split; [exact Hc | ]. apply IH; assumption.
  - intros [-> | [c [Hc H]]]; [left; reflexivity | right]. exists c. split; [exact Hc | ]. apply (IH c Hc); assumption.
Qed.

Lemma nodup_app : forall (a b : list nat), NoDup (a ++ b) -> NoDup a /\ NoDup b /\ forall x, In x a -> ~ In x b.
Proof.
  induction a as [ | x a IH]; intros b H; [split; [constructor | split; [exact H | intros x []]] | ].
  cbn [app] in H. inversion H; subst. destruct (IH b H3) as [I1 [I2 I3]]. split; [ | split; [exact I2 | ]].
  - constructor; [ | exact I1]. intros Hx. apply H2. apply in_or_app. left. exact Hx.
  - intros y [<- | Hy]; [ | exact (I3 y Hy)]. intros Hx. apply H2. apply in_or_app. right. exact Hx.
Qed.
Lemma distinct_child : forall i cs c, distinct (ANode i cs) -> In c cs -> distinct c /\ ~ inside c i.
Proof.
  intros i cs c H Hc. unfold distinct in *. cbn [numbers] in H. inversion H; subst. split.
  - clear H2 H. induction cs as [ | d cs IH]; [destruct Hc | ]. cbn [flat_map] in H3.
    apply nodup_app in H3. destruct H3 as [I1 [I2 _]]. destruct Hc as [<- | Hc]; [exact I1 | exact (IH Hc I2)].
  - intros Hi. apply H2. apply in_flat_map. exists c. split; [exact Hc | ]. apply inside_numbers. exact Hi.
Qed.
Lemma distinct_same : forall i cs c1 c2 j, distinct (ANode i cs) -> In c1 cs -> In c2 cs ->
  inside c1 j -> inside c2 j -> c1 = c2.
Proof.
  intros i cs c1 c2 j H H1 H2 I1 I2. unfold distinct in H. cbn [numbers] in H. inversion H; subst. clear H H4.
  apply inside_numbers in I1. apply inside_numbers in I2.
  induction cs as [ | d cs IH]; [destruct H1 | ]. cbn [flat_map] in H5. apply nodup_app in H5.
  destruct H5 as [_ [N2 N3]]. destruct H1 as [<- | H1]; destruct H2 as [<- | H2].
  - reflexivity.
  - contradiction (N3 j I1). apply in_flat_map. exists c2. split; assumption.
  - contradiction (N3 j I2). apply in_flat_map. exists c1. split; assumption.
  - apply IH; assumption.
Qed.

(** * The scheme *)
Section Gen.
Context (sel stop : nat -> bool).

Lemma gen_sound : forall t i, In i (gen sel stop t) -> inside t i /\ sel i = true.
Proof.
  induction t as [n cs IH] using atree_ind'. intros i H. cbn [gen] in H. destruct (sel n) eqn:E.
  - destruct H as [<- | []]. split; [apply (inside_root (ANode n cs)) | exact E].
  - destruct (stop n); [destruct H | ]. apply in_flat_map in H. destruct H as [c [Hc H]].
    destruct (IH c Hc i H) as [H1 H2]. split; [ | exact H2]. apply inside_node. right. exists c. split; assumption.
Qed.

Lemma gen_cover : forall t,
  (forall a, sub t a -> stop (root a) = true -> forall j, inside a j -> sel j = true -> sel (root a) = true) ->
  forall j, inside t j -> sel j = true -> exists i, In i (gen sel stop t) /\ contains t i j.
Proof.
  induction t as [n cs IH] using atree_ind'. intros Hs j Hj Sj. cbn [gen]. destruct (sel n) eqn:E.
  - exists n. split; [left; reflexivity | ]. apply (contains_root (ANode n cs)). exact Hj.
  - destruct (stop n) eqn:Es.
    { pose proof (Hs (ANode n cs) (sub_self _) Es j Hj Sj) as B. cbn [root] in B. rewrite B in E. discriminate E. }
    apply inside_node in Hj. destruct Hj as [-> | [c [Hc Hj]]]; [rewrite Sj in E; discriminate E | ].
    destruct (IH c Hc) with (j := j) as [i [H1 H2]]; [ | exact Hj | exact Sj | ].
    { intros a Ha. apply Hs. apply sub_child with (c := c); assumption. }
    exists i. split; [apply in_flat_map; exists c; split; assumption | ].
    apply contains_child with (c := c); assumption.
Qed.

(** A chosen node is the topmost selected one. *)
Lemma gen_top : forall t, distinct t -> forall i a, In i (gen sel stop t) -> contains t a i -> sel a = true -> a = i.
Proof.
  induction t as [n cs IH] using atree_ind'. intros D i a H C Sa. cbn [gen] in H. destruct (sel n) eqn:E.
  - destruct H as [<- | []]. apply contains_node in C. destruct C as [[-> _] | [c [Hc C]]]; [reflexivity | ].
    destruct (contains_inside _ _ _ C) as [_ I2]. destruct (distinct_child n cs c D Hc) as [_ N]. contradiction.
  - destruct (stop n); [destruct H | ]. apply in_flat_map in H. destruct H as [c [Hc H]].
    apply contains_node in C. destruct C as [[-> _] | [c' [Hc' C]]]; [rewrite Sa in E; discriminate E | ].
    destruct (gen_sound c i H) as [I1 _]. destruct (contains_inside _ _ _ C) as [_ I2].
    pose proof (distinct_same n cs c c' i D Hc Hc' I1 I2) as ->.
    apply (IH c' Hc'); [apply (distinct_child n cs c' D Hc') | exact H | exact C | exact Sa].
Qed.

Lemma gen_once : forall t, distinct t -> forall i1 i2 j, In i1 (gen sel stop t) -> In i2 (gen sel stop t) ->
  contains t i1 j -> contains t i2 j -> i1 = i2.
Proof.
  induction t as [n cs IH] using atree_ind'. intros D i1 i2 j H1 H2 C1 C2. cbn [gen] in H1, H2. destruct (sel n) eqn:E.
  - destruct H1 as [<- | []]. destruct H2 as [<- | []]. reflexivity.
  - destruct (stop n); [destruct H1 | ].
    apply in_flat_map in H1. destruct H1 as [c1 [Hc1 H1]]. apply in_flat_map in H2. destruct H2 as [c2 [Hc2 H2]].
    assert (G : forall i c, In c cs -> In i (gen sel stop c) -> contains (ANode n cs) i j -> contains c i j).
    { intros i c Hc H C. destruct (gen_sound c i H) as [Ii _]. apply contains_node in C.
      destruct C as [[-> _] | [c' [Hc' C]]].
      - destruct (distinct_child n cs c D Hc) as [_ N]. contradiction.
      - destruct (contains_inside _ _ _ C) as [I2 _].
        rewrite (distinct_same n cs c c' i D Hc Hc' Ii I2). exact C. }
    apply (G i1 c1 Hc1 H1) in C1. apply (G i2 c2 Hc2 H2) in C2.
    destruct (contains_inside _ _ _ C1) as [_ J1]. destruct (contains_inside _ _ _ C2) as [_ J2].
    pose proof (distinct_same n cs c1 c2 j D Hc1 Hc2 J1 J2) as ->.
    apply (IH c2 Hc2) with (j := j); try assumption. apply (distinct_child n cs c2 D Hc2).
Qed.

Lemma nodup_flat : forall (f : atree -> list nat) cs,
  (forall c, In c cs -> NoDup (f c)) -> (forall c i, In c cs -> In i (f c) -> In i (numbers c)) ->
  NoDup (flat_map numbers cs) -> NoDup (flat_map f cs).
Proof.
  intros f. induction cs as [ | c cs IH]; intros H1 H2 H; [constructor | ]. cbn [flat_map] in *.
  apply nodup_app in H. destruct H as [N1 [N2 N3]].
  assert (R : NoDup (flat_map f cs)).
  { apply IH; [intros; apply H1; right; assumption | intros d i Hd; apply H2; right; exact Hd | exact N2]. }
  assert (N4 : forall x, In x (f c) -> ~ In x (flat_map f cs)).
  { intros x Hx Hy. apply in_flat_map in Hy. destruct Hy as [d [Hd Hy]].
    apply (N3 x (H2 c x (or_introl eq_refl) Hx)). apply in_flat_map. exists d. split; [exact Hd | ].
    apply H2; [right; exact Hd | exact Hy]. }
  pose proof (H1 c (or_introl eq_refl)) as Nc. clear - R N4 Nc. induction (f c) as [ | x l IHl]; [exact R | ].
  cbn [app]. inversion Nc; subst. constructor.
  - intros Hx. apply in_app_or in Hx. destruct Hx as [Hx | Hx]; [contradiction | ].
    exact (N4 x (or_introl eq_refl) Hx).
  - apply IHl; [intros y Hy; apply N4; right; exact Hy | assumption].
Qed.

Lemma gen_nodup : forall t, distinct t -> NoDup (gen sel stop t).
Proof.
  induction t as [n cs IH] using atree_ind'. intros D. cbn [gen]. destruct (sel n).
  - constructor; [intros [] | constructor].
  - destruct (stop n); [constructor | ]. apply nodup_flat.
    + intros c Hc. apply IH; [exact Hc | apply (distinct_child n cs c D Hc)].
    + intros c i Hc Hi. apply inside_numbers. apply (gen_sound c i Hi).
    + unfold distinct in D. cbn [numbers] in D. inversion D; assumption.
Qed.

Lemma gen_smallest : forall t l, distinct t -> (forall i, In i l -> sel i = true) ->
  (forall j, inside t j -> sel j = true -> exists i, In i l /\ contains t i j) ->
  incl (gen sel stop t) l.
Proof.
  intros t l D Hl Hc i Hi. destruct (gen_sound t i Hi) as [H1 H2]. destruct (Hc i H1 H2) as [a [Ha C]].
  rewrite <- (gen_top t D i a Hi C (Hl a Ha)). exact Ha.
Qed.
End Gen.

(** * The property *)
(** Without holes nodes of a subtree which is not in the set are not in it. *)
Lemma holes_down : forall ds t, no_holes ds t -> ds (root t) = None -> forall j, inside t j -> ds j = None.
Proof.
  intros ds. induction t as [n cs IH] using atree_ind'. intros Hh Hn j Hj. cbn [root] in Hn.
  apply inside_node in Hj. destruct Hj as [-> | [c [Hc Hj]]]; [exact Hn | ].
  apply (IH c Hc).
  - intros i ds' c' Hsub. apply Hh. apply sub_child with (c := c); assumption.
  - destruct (ds (root c)) eqn:E; [ | reflexivity].
    exfalso. apply (Hh n cs c (sub_self _) Hc); [rewrite E; discriminate | exact Hn].
  - exact Hj.
Qed.
Lemma no_holes_sub : forall ds t a, no_holes ds t -> sub t a -> no_holes ds a.
Proof. intros ds t a H Ha i cs c Hs. apply H. exact (sub_trans _ _ _ Ha Hs). Qed.

Lemma cover_true : C91_cover_claim true.
Proof.
  intros t ign ds Hh j Hj A. specialize (Hh eq_refl). rewrite access_gen. apply accessed_sel in A.
  apply gen_cover; [ | exact Hj | exact A]. intros a Ha Hs k Hk Sk.
  assert (N : ds (root a) = None) by (unfold aStop in Hs; destruct (ds (root a)); [discriminate Hs | reflexivity]).
  pose proof (holes_down ds a (no_holes_sub ds t a Hh Ha) N k Hk) as B.
  unfold aSel in Sk. rewrite B in Sk. discriminate Sk.
Qed.
Lemma explicit_cover_true : C91_explicit_cover_claim.
Proof.
  intros t ign ds j Hj A. rewrite explicit_gen. apply explicitly_sel in A.
  apply gen_cover; [ | exact Hj | exact A]. discriminate.
Qed.
Lemma sound_true : C91_sound_claim.
Proof.
  intros t ign ds i. rewrite access_gen, explicit_gen. split; intros H; apply gen_sound in H; destruct H as [H1 H2].
  - split; [exact H1 | apply accessed_sel; exact H2].
  - split; [exact H1 | apply explicitly_sel; exact H2].
Qed.
Lemma once_true : C91_once_claim.
Proof.
  intros t ign ds D. rewrite access_gen, explicit_gen. split; (split; [apply gen_nodup; exact D | apply gen_once; exact D]).
Qed.
Lemma smallest_true : C91_smallest_claim.
Proof.
  intros t ign ds l D. rewrite access_gen, explicit_gen. split; intros H C.
  - apply gen_smallest; [exact D | intros i Hi; apply accessed_sel; apply H; exact Hi | ].
    intros j Hj Sj. apply C; [exact Hj | apply accessed_sel; exact Sj].
  - apply gen_smallest; [exact D | intros i Hi; apply explicitly_sel; apply H; exact Hi | ].
    intros j Hj Sj. apply C; [exact Hj | apply explicitly_sel; exact Sj].
Qed.
Lemma general_true : C91_general_claim true true.
Proof.
  intros t ign ds Hh Hr j Hj [x [E [H1 H2]]]. apply (cover_true t ign ds Hh j Hj).
  exists x. split; [exact E | ]. destruct ign; [left; apply H2; reflexivity | ].
  destruct (Hr eq_refl j x E H1) as [H | H]; [left; exact H | right; split; [reflexivity | exact H]].
Qed.
