(** Proofs for C96. *)
From Coq Require Import PeanoNat Bool List Permutation Lia Compare_dec.
From Verif Require Import LoopLevelModel LoopLevelSpec.
Import ListNotations.

Lemma ltLoc_iff : forall a b, ltLoc a b = true <->
  (lLine a < lLine b \/ lLine a = lLine b /\ (lCol a < lCol b \/ lCol a = lCol b /\
   (lMacroLine a < lMacroLine b \/ lMacroLine a = lMacroLine b /\ lMacroCol a < lMacroCol b))).
Proof.
  intros a b. unfold ltLoc. repeat rewrite orb_true_iff. repeat rewrite andb_true_iff.
  repeat rewrite Nat.ltb_lt. repeat rewrite Nat.eqb_eq. tauto.
Qed.
Lemma ltLoc_irr : forall a, ltLoc a a = false.
Proof. intros a. destruct (ltLoc a a) eqn:E; [ | reflexivity]. apply ltLoc_iff in E. lia. Qed.
Lemma ltLoc_asym : forall a b, ltLoc a b = true -> ltLoc b a = false.
Proof. intros a b H. apply ltLoc_iff in H. destruct (ltLoc b a) eqn:E; [ | reflexivity]. apply ltLoc_iff in E. lia. Qed.
Lemma ltLoc_trans : forall a b c, ltLoc a b = true -> ltLoc b c = true -> ltLoc a c = true.
Proof. intros a b c H K. apply ltLoc_iff in H. apply ltLoc_iff in K. apply ltLoc_iff. lia. Qed.
Lemma ltLoc_total : forall a b, ltLoc a b = false -> ltLoc b a = false -> a = b.
Proof.
  intros a b H K. destruct a as [a1 a2 a3 a4], b as [b1 b2 b3 b4].
  assert (H' : ~ (ltLoc (Location a1 a2 a3 a4) (Location b1 b2 b3 b4) = true)) by (rewrite H; discriminate).
  assert (K' : ~ (ltLoc (Location b1 b2 b3 b4) (Location a1 a2 a3 a4) = true)) by (rewrite K; discriminate).
  rewrite ltLoc_iff in H'. rewrite ltLoc_iff in K'. cbn in H', K'. f_equal; lia.
Qed.

Lemma getLocation_mono : forall t t', tLine t < tLine t' \/ tLine t = tLine t' /\ tCol t < tCol t' ->
  ltLoc (getLocation t) (getLocation t') = true.
Proof.
  intros t t' H. apply ltLoc_iff. unfold getLocation. destruct (sScratch t), (sScratch t'); cbn; lia.
Qed.

Lemma mono : forall P main text, printed main text -> separate P text -> single P main text ->
  forall t t', bound P t -> bound P t' -> t < t' -> ltLoc (getLocation (text t)) (getLocation (text t')) = true.
Proof.
  intros P main text Pr Se Si t t' Bt Bt' L. pose proof (Si t Bt) as F. pose proof (Si t' Bt') as F'.
  apply getLocation_mono. destruct (Pr t t' L F F') as [X | [X Y]]; [left; exact X | ]. right. split; [exact X | ].
  assert (N : t <> t') by lia. pose proof (Se t t' Bt Bt' N (eq_trans F (eq_sym F')) X). lia.
Qed.
Lemma mono_inv : forall P main text, printed main text -> separate P text -> single P main text ->
  forall t t', bound P t -> bound P t' -> ltLoc (getLocation (text t)) (getLocation (text t')) = true -> t < t'.
Proof.
  intros P main text Pr Se Si t t' Bt Bt' L. destruct (Nat.lt_trichotomy t t') as [X | [X | X]]; [exact X | | ].
  - subst t'. rewrite ltLoc_irr in L. discriminate L.
  - pose proof (mono P main text Pr Se Si t' t Bt' Bt X) as M. rewrite (ltLoc_asym _ _ M) in L. discriminate L.
Qed.

(** ** Order *)
Lemma set_fst : forall text ls st, map fst (setLevels text st ls) = ls.
Proof. intros text. induction ls as [ | p ls IH]; intros st; [reflexivity | ]. cbn. f_equal. apply IH. Qed.

Lemma all_true : C96_all_claim.
Proof. intros text ls a [res [[Pm _] ->]]. rewrite set_fst. exact Pm. Qed.

Lemma ordered_app : forall text l p r q, ordered text (l ++ p :: r) -> In q r -> ltLoc (startLoc text q) (startLoc text p) = false.
Proof.
  intros text. induction l as [ | x l IH]; intros p r q O H.
  - cbn in O. inversion O as [ | ? ? A B]; subst. exact (A q H).
  - cbn [app] in O. inversion O as [ | ? ? A B]; subst. exact (IH p r q B H).
Qed.

Lemma first_bound : forall P a, In a (pLoops P) -> bound P (oFirst a).
Proof. intros P a H. exists a. split; [exact H | left; reflexivity]. Qed.
Lemma last_bound : forall P a, In a (pLoops P) -> bound P (oLast a).
Proof. intros P a H. exists a. split; [exact H | right; reflexivity]. Qed.
Lemma first_inj : forall P a b, wellFormed P -> In a (pLoops P) -> In b (pLoops P) -> oFirst a = oFirst b -> a = b.
Proof.
  intros P a b [_ [W1 W2]] Ha Hb E.
  assert (D : {a = b} + {a <> b}) by (decide equality; apply Nat.eq_dec). destruct D as [D | D]; [exact D | exfalso].
  pose proof (W1 a Ha). pose proof (W1 b Hb). unfold apart, inside in W2. destruct (W2 a b Ha Hb D) as [[X | X] | [X | X]]; lia.
Qed.

Lemma order_true : C96_order_claim true true.
Proof.
  intros P main text a W Pr Se Si [res [[Pm O] Ea]] l p n q k r E H. specialize (Se eq_refl). specialize (Si eq_refl).
  assert (Er : res = map fst l ++ p :: map fst r).
  { rewrite <- (set_fst text res []), <- Ea, E, map_app. reflexivity. }
  assert (Hq : In q (map fst r)) by (apply in_map_iff; exists (q, k); split; [reflexivity | exact H]).
  assert (Ip : In p (pLoops P)) by (apply (Permutation_in p (Permutation_sym Pm)); rewrite Er; apply in_or_app; right; left; reflexivity).
  assert (Iq : In q (pLoops P)) by (apply (Permutation_in q (Permutation_sym Pm)); rewrite Er; apply in_or_app; right; right; exact Hq).
  rewrite Er in O. pose proof (ordered_app text _ p _ q O Hq) as L.
  assert (N : p <> q).
  { intros ->. pose proof (Permutation_NoDup Pm (proj1 W)) as ND. rewrite Er in ND. apply NoDup_remove_2 in ND. apply ND.
    apply in_or_app. right. exact Hq. }
  destruct (Nat.lt_trichotomy (oFirst p) (oFirst q)) as [X | [X | X]]; [exact X | | ].
  - contradiction (N (first_inj P p q W Ip Iq X)).
  - pose proof (mono P main text Pr Se Si _ _ (first_bound P q Iq) (first_bound P p Ip) X) as M. unfold startLoc in L.
    rewrite M in L. discriminate L.
Qed.

Definition loop_dec : forall x y : loop, {x = y} + {x <> y}.
Proof. decide equality; apply Nat.eq_dec. Defined.

(** ** Levels *)
Section Stack.
  Variable P : program.
  Variable main : nat.
  Variable text : nat -> token.
  Hypothesis W : wellFormed P.
  Hypothesis Ex : explicit P.
  Hypothesis Pr : printed main text.
  Hypothesis Se : separate P text.
  Hypothesis Si : single P main text.

  (** Loops which are in the stack, a processed loop is in the stack or it is finished. *)
  Definition state (done st : list loop) (from : nat) : Prop :=
    NoDup st /\ incl st done
    /\ (forall a, In a done -> In a (pLoops P) /\ oFirst a < from)
    /\ (forall a, In a done -> ~ In a st -> pEnd P a < from)
    /\ (forall l a b r, st = l ++ b :: r -> In a r -> inside P b a).

  Lemma end_lt : forall a b, In a (pLoops P) -> In b (pLoops P) ->
    (ltLoc (endLoc text a) (endLoc text b) = true <-> pEnd P a < pEnd P b).
  Proof.
    intros a b Ha Hb. unfold endLoc. rewrite <- (Ex a Ha), <- (Ex b Hb). split; intros H.
    - exact (mono_inv P main text Pr Se Si _ _ (last_bound P a Ha) (last_bound P b Hb) H).
    - exact (mono P main text Pr Se Si _ _ (last_bound P a Ha) (last_bound P b Hb) H).
  Qed.

  Lemma pop_state : forall st done b, In b (pLoops P) -> state done st (oFirst b) ->
    exists st', popLevels (map (endLoc text) st) (endLoc text b) = map (endLoc text) st'
      /\ state done st' (oFirst b) /\ forall a, In a done -> (In a st' <-> inside P b a).
  Proof.
    induction st as [ | t st IH]; intros done b Hb [ND [Inc [S1 [S2 S3]]]].
    - exists []. split; [reflexivity | ]. split; [exact (conj ND (conj Inc (conj S1 (conj S2 S3)))) | ].
      intros a Ha. split; [intros [] | ]. intros [L1 L2]. exfalso. pose proof (S2 a Ha (fun X => X)) as X.
      pose proof (proj1 (proj2 W) b Hb). lia.
    - assert (Ht : In t done) by (apply Inc; left; reflexivity). destruct (S1 t Ht) as [It Ft].
      cbn [map popLevels]. destruct (ltLoc (endLoc text t) (endLoc text b)) eqn:L.
      + apply (end_lt t b It Hb) in L. apply (IH done b Hb). inversion ND as [ | ? ? N1 N2]; subst.
        split; [exact N2 | ]. split; [intros x Hx; apply Inc; right; exact Hx | ]. split; [exact S1 | ]. split.
        * intros a Ha Na. assert (D : {a = t} + {a <> t}) by (decide equality; apply Nat.eq_dec). destruct D as [-> | D].
          -- assert (Nb : t <> b) by (intros ->; lia).
             destruct (proj2 (proj2 W) t b It Hb Nb) as [[X | X] | [[X Y] | [X Y]]]; [exact X | | lia | lia].
             pose proof (proj1 (proj2 W) b Hb). lia.
          -- apply (S2 a Ha). intros [X | X]; [congruence | contradiction].
        * intros l a c r E Ha. apply (S3 (t :: l) a c r); [cbn; f_equal; exact E | exact Ha].
      + assert (L' : pEnd P b <= pEnd P t).
        { destruct (le_gt_dec (pEnd P b) (pEnd P t)) as [X | X]; [exact X | ]. apply (end_lt t b It Hb) in X. congruence. }
        exists (t :: st). split; [reflexivity | ]. split; [exact (conj ND (conj Inc (conj S1 (conj S2 S3)))) | ].
        intros a Ha. split.
        * intros [<- | H]; [split; [exact Ft | exact L'] | ]. destruct (S3 [] a t st eq_refl H) as [X Y]. split; lia.
        * intros [X Y]. destruct (in_dec loop_dec a (t :: st)) as [I | N]; [exact I | exfalso].
          pose proof (S2 a Ha N). pose proof (proj1 (proj2 W) b Hb). lia.
  Qed.

  Lemma filter_count : forall (f : loop -> bool) st ls, NoDup st -> NoDup ls ->
    (forall a, In a st <-> In a ls /\ f a = true) -> length st = length (filter f ls).
  Proof.
    intros f st ls N1 N2 H. apply Permutation_length. apply NoDup_Permutation; [exact N1 | apply NoDup_filter; exact N2 | ].
    intros a. rewrite filter_In. apply H.
  Qed.

  Lemma levels_ok : forall ls done st, Permutation (pLoops P) (done ++ ls) ->
    (forall l p r q, ls = l ++ p :: r -> In q r -> oFirst p < oFirst q) ->
    (forall b r, ls = b :: r -> state done st (oFirst b)) ->
    forall p n, In (p, n) (setLevels text (map (endLoc text) st) ls) -> n = 1 + depth P p.
  Proof.
    induction ls as [ | b ls IH]; intros done st Pm O St p n H; [destruct H | ].
    specialize (St b ls eq_refl).
    assert (Hb : In b (pLoops P)) by (apply (Permutation_in b (Permutation_sym Pm)); apply in_or_app; right; left; reflexivity).
    assert (After : forall q, In q ls -> oFirst b < oFirst q) by (intros q; exact (O [] b ls q eq_refl)).
    destruct (pop_state st done b Hb St) as [st' [Ep [[ND [Inc [S1 [S2 S3]]]] Hin]]].
    cbn [setLevels] in H. rewrite Ep in H. destruct H as [H | H].
    - apply pair_equal_spec in H. destruct H as [<- <-]. rewrite map_length. unfold depth.
      rewrite (filter_count (insideb P b) st' (pLoops P) ND (proj1 W)); [lia | ].
      intros a. unfold insideb. rewrite andb_true_iff, Nat.ltb_lt, Nat.leb_le. split.
      + intros Ha. destruct (S1 a (Inc a Ha)) as [Ia _]. split; [exact Ia | ]. apply (Hin a (Inc a Ha)). exact Ha.
      + intros [Ia [X Y]]. apply (Permutation_in a Pm) in Ia. apply in_app_or in Ia. destruct Ia as [Ia | [<- | Ia]].
        * apply (Hin a Ia). split; assumption.
        * lia.
        * pose proof (After a Ia). lia.
    - change (endLoc text b :: map (endLoc text) st') with (map (endLoc text) (b :: st')) in H.
      apply (IH (done ++ [b]) (b :: st')) in H; [exact H | | | ].
      + rewrite <- app_assoc. exact Pm.
      + intros l q r c E Hc. apply (O (b :: l) q r c); [cbn; f_equal; exact E | exact Hc].
      + intros c r E. assert (Bc : oFirst b < oFirst c) by (apply After; rewrite E; left; reflexivity).
        assert (Hc : In c (pLoops P)).
        { apply (Permutation_in c (Permutation_sym Pm)). apply in_or_app. right. right. rewrite E. left. reflexivity. }
        assert (Nbd : ~ In b done) by (intros Hd; destruct (S1 b Hd); lia).
        split; [constructor; [intros X; exact (Nbd (Inc b X)) | exact ND] | ].
        split; [intros x [<- | Hx]; apply in_or_app; [right; left; reflexivity | left; exact (Inc x Hx)] | ].
        split; [ | split].
        * intros a Ha. apply in_app_or in Ha. destruct Ha as [Ha | [<- | []]]; [ | split; assumption].
          destruct (S1 a Ha) as [X Y]. split; [exact X | lia].
        * intros a Ha Na. apply in_app_or in Ha. destruct Ha as [Ha | [<- | []]]; [ | contradiction Na; left; reflexivity].
          assert (X : pEnd P a < oFirst b) by (apply (S2 a Ha); intros X; apply Na; right; exact X). lia.
        * intros l a d r' El Ha. destruct l as [ | y l].
          -- cbn in El. injection El as <- <-. apply (Hin a (Inc a Ha)). exact Ha.
          -- cbn in El. injection El as _ El. exact (S3 l a d r' El Ha).
  Qed.
End Stack.

Lemma level_true : C96_level_claim true true true.
Proof.
  intros P main text a W Pr Ex Se Si A p n H.
  pose proof (order_true P main text a W Pr Se Si A) as Or.
  specialize (Ex eq_refl). specialize (Se eq_refl). specialize (Si eq_refl).
  destruct A as [res [[Pm O] Ea]]. subst a.
  apply (levels_ok P main text W Ex Pr Se Si res [] []); [exact Pm | | | exact H].
  - intros l q r c E Hc.
    assert (Split : forall ls st l0 q0 r0, ls = l0 ++ q0 :: r0 -> In c r0 ->
              exists l1 m k r1, setLevels text st ls = l1 ++ (q0, m) :: r1 /\ In (c, k) r1).
    { induction ls as [ | x ls IHl]; intros st l0 q0 r0 E0 Hc0; [destruct l0; discriminate E0 | ].
      destruct l0 as [ | y l0].
      - cbn in E0. injection E0 as <- <-. cbn [setLevels].
        set (s2 := endLoc text x :: popLevels st (endLoc text x)).
        assert (X : In c (map fst (setLevels text s2 ls))) by (rewrite set_fst; exact Hc0).
        apply in_map_iff in X. destruct X as [[c' k] [Ec X]]. cbn in Ec. subst c'.
        exists [], (length (popLevels st (endLoc text x)) + 1), k, (setLevels text s2 ls). split; [reflexivity | exact X].
      - cbn in E0. injection E0 as <- E0. cbn [setLevels].
        destruct (IHl (endLoc text x :: popLevels st (endLoc text x)) l0 q0 r0 E0 Hc0) as [l1 [m [k [r1 [X Y]]]]].
        exists ((x, length (popLevels st (endLoc text x)) + 1) :: l1), m, k, r1. split; [rewrite X; reflexivity | exact Y]. }
    destruct (Split res [] l q r E Hc) as [l1 [m [k [r1 [X Y]]]]]. exact (Or l1 q m c k r1 X Y).
  - intros b r E. split; [constructor | ]. split; [intros x [] | ]. split; [intros x [] | ]. split; [intros x [] | ].
    intros l x y r' El. destruct l; discriminate El.
Qed.

(** ** Shape of an answer *)
Lemma pop_len : forall e st, length (popLevels st e) <= length st.
Proof. intros e. induction st as [ | t st IH]; [apply le_n | ]. cbn [popLevels]. destruct (ltLoc t e); cbn; [lia | apply le_n]. Qed.
Lemma set_shape : forall text ls st l p n q k r,
  setLevels text st ls = l ++ (p, n) :: (q, k) :: r -> 1 <= k <= n + 1.
Proof.
  intros text. induction ls as [ | b ls IH]; intros st l p n q k r E; [destruct l; discriminate E | ].
  cbn [setLevels] in E. destruct l as [ | x l].
  - cbn [app] in E. injection E as _ En E. destruct ls as [ | c ls]; [discriminate E | ]. cbn [setLevels] in E. injection E as _ Ek _.
    subst n k. pose proof (pop_len (endLoc text c) (endLoc text b :: popLevels st (endLoc text b))) as L. cbn [popLevels length] in L |- *. lia.
  - cbn [app] in E. injection E as _ E. exact (IH _ _ _ _ _ _ _ E).
Qed.
Lemma forest_true : C96_forest_claim.
Proof.
  intros text ls a [res [_ ->]]. split.
  - intros p n r E. destruct res as [ | b res]; [discriminate E | ]. cbn in E. injection E as _ <- _. reflexivity.
  - intros l p n q k r E. exact (set_shape text res [] l p n q k r E).
Qed.

(** ** Existence and uniqueness *)
Fixpoint insertLoop (text : nat -> token) (p : loop) (l : list loop) : list loop :=
  match l with
  | [] => [p]
  | q :: r => if ltLoc (startLoc text q) (startLoc text p) then q :: insertLoop text p r else p :: l
  end.
Lemma insert_perm : forall text p l, Permutation (p :: l) (insertLoop text p l).
Proof.
  intros text p. induction l as [ | q r IH]; [apply Permutation_refl | ]. cbn [insertLoop].
  destruct (ltLoc _ _); [ | apply Permutation_refl]. eapply Permutation_trans; [apply perm_swap | ]. apply perm_skip. exact IH.
Qed.
Lemma insert_ordered : forall text p l, ordered text l -> ordered text (insertLoop text p l).
Proof.
  intros text p. induction l as [ | q r IH]; intros O.
  - constructor; [intros x [] | constructor].
  - inversion O as [ | ? ? A B]; subst. cbn [insertLoop]. destruct (ltLoc (startLoc text q) (startLoc text p)) eqn:L.
    + constructor; [ | exact (IH B)]. intros x Hx. apply (Permutation_in x (Permutation_sym (insert_perm text p r))) in Hx.
      destruct Hx as [<- | Hx]; [apply ltLoc_asym; exact L | exact (A x Hx)].
    + constructor; [ | exact O]. intros x [<- | Hx]; [exact L | ]. destruct (ltLoc (startLoc text x) (startLoc text p)) eqn:Lx; [ | reflexivity].
      pose proof (A x Hx) as Ax.
      destruct (ltLoc (startLoc text p) (startLoc text q)) eqn:Lp.
      * rewrite (ltLoc_trans _ _ _ Lx Lp) in Ax. discriminate Ax.
      * pose proof (ltLoc_total _ _ L Lp) as Eq. rewrite Eq in Ax. congruence.
Qed.
Lemma total_true : C96_total_claim.
Proof.
  intros text ls. assert (E : exists res, sorted text ls res).
  { induction ls as [ | p ls [res [Pm O]]]; [exists []; split; constructor | ]. exists (insertLoop text p res). split.
    - eapply Permutation_trans; [apply perm_skip; exact Pm | apply insert_perm].
    - apply insert_ordered. exact O. }
  destruct E as [res S]. exists (setLevels text [] res), res. split; [exact S | reflexivity].
Qed.

Lemma ordered_unique : forall text l l', Permutation l l' -> ordered text l -> ordered text l' ->
  (forall p q, In p l -> In q l -> p <> q -> startLoc text p <> startLoc text q) -> l = l'.
Proof.
  intros text. induction l as [ | p l IH]; intros l' Pm O O' D.
  - apply Permutation_nil in Pm. symmetry. exact Pm.
  - destruct l' as [ | q l']; [apply Permutation_sym in Pm; apply Permutation_nil in Pm; discriminate Pm | ].
    inversion O as [ | ? ? A B]; subst. inversion O' as [ | ? ? A' B']; subst.
    assert (Epq : p = q).
    { assert (Dec : {p = q} + {p <> q}) by (decide equality; apply Nat.eq_dec). destruct Dec as [E | N]; [exact E | exfalso].
      assert (Hq : In q (p :: l)) by (apply (Permutation_in q (Permutation_sym Pm)); left; reflexivity).
      assert (Hp : In p (q :: l')) by (apply (Permutation_in p Pm); left; reflexivity).
      destruct Hq as [Hq | Hq]; [congruence | ]. destruct Hp as [Hp | Hp]; [congruence | ].
      apply (D p q (or_introl eq_refl) (or_intror Hq) N). apply ltLoc_total; [exact (A' p Hp) | exact (A q Hq)]. }
    subst q. f_equal. apply IH; [exact (Permutation_cons_inv Pm) | exact B | exact B' | ].
    intros x y Hx Hy. apply D; right; assumption.
Qed.
Lemma unique_true : C96_unique_claim true.
Proof.
  intros text ls ls' a a' D Pm [res [[P1 O1] ->]] [res' [[P2 O2] ->]]. specialize (D eq_refl). f_equal.
  apply (ordered_unique text); [ | exact O1 | exact O2 | ].
  - eapply Permutation_trans; [apply Permutation_sym; exact P1 | ]. eapply Permutation_trans; [exact Pm | exact P2].
  - intros p q Hp Hq. apply D; [apply (Permutation_in p (Permutation_sym P1)); exact Hp | apply (Permutation_in q (Permutation_sym P1)); exact Hq].
Qed.

(** * Refutations *)
Definition plain (t : nat) : token := Token 0 (1 + t) 1 (1 + t) 1 false.
Lemma plain_printed : printed 0 plain.
Proof. intros t t' L _ _. left. cbn. lia. Qed.

(** l: x = 1; for (...) ...; goto l; *)
Definition implP : program := Program [Loop 0 0 1; Loop 1 2 3] (fun p => match oId p with 0 => 4 | _ => 3 end).
Lemma level_implicit : ~ C96_level_claim false true true.
Proof.
  intros C. assert (X : 1 = 1 + depth implP (Loop 1 2 3)); [ | discriminate X].
  apply (C implP 0 plain [(Loop 0 0 1, 1); (Loop 1 2 3, 1)]).
  - split; [ | split].
    + constructor; [intros [X | []]; discriminate X | ]. constructor; [intros [] | constructor].
    + intros a [<- | [<- | []]]; cbn; lia.
    + intros a b [<- | [<- | []]] [<- | [<- | []]] N; try contradiction; right; [right | left]; split; cbn; lia.
  - exact plain_printed.
  - discriminate.
  - intros _ t t' _ _ N _ E. cbn in E. injection E as E. contradiction.
  - intros _ t _. reflexivity.
  - exists (pLoops implP). split; [ | reflexivity]. split; [apply Permutation_refl | ].
    constructor; [intros q [<- | []]; reflexivity | ]. constructor; [intros q [] | constructor].
  - right. left. reflexivity.
Qed.

(** Two loops from the same macro: #define L for (...) x;   #define TWO L L *)
Definition macroText (t : nat) : token := Token 0 1 1 5 (1 + t mod 2) false.
Definition macroP : program := Program [Loop 0 0 1; Loop 1 2 3] oLast.
Lemma macro_wf : wellFormed macroP.
Proof.
  split; [ | split].
  - constructor; [intros [X | []]; discriminate X | ]. constructor; [intros [] | constructor].
  - intros a [<- | [<- | []]]; cbn; lia.
  - intros a b [<- | [<- | []]] [<- | [<- | []]] N; try contradiction; left; unfold apart; cbn; lia.
Qed.
Lemma level_macro : ~ C96_level_claim true false true.
Proof.
  intros C. assert (X : 2 = 1 + depth macroP (Loop 1 2 3)); [ | discriminate X].
  apply (C macroP 0 macroText [(Loop 0 0 1, 1); (Loop 1 2 3, 2)]).
  - exact macro_wf.
  - intros t t' _ _ _. right. split; [reflexivity | apply le_n].
  - intros _ a _. reflexivity.
  - discriminate.
  - intros _ t _. reflexivity.
  - exists (pLoops macroP). split; [ | reflexivity]. split; [apply Permutation_refl | ].
    constructor; [intros q [<- | []]; reflexivity | ]. constructor; [intros q [] | constructor].
  - right. left. reflexivity.
Qed.
Lemma order_macro : ~ C96_order_claim false true.
Proof.
  intros C. assert (X : oFirst (Loop 1 2 3) < oFirst (Loop 0 0 1)); [ | cbn in X; lia].
  apply (C macroP 0 macroText [(Loop 1 2 3, 1); (Loop 0 0 1, 2)]) with (l := []) (n := 1) (k := 2) (r := [(Loop 0 0 1, 2)]).
  - exact macro_wf.
  - intros t t' _ _ _. right. split; [reflexivity | apply le_n].
  - discriminate.
  - intros _ t _. reflexivity.
  - exists [Loop 1 2 3; Loop 0 0 1]. split; [ | reflexivity]. split; [apply perm_swap | ].
    constructor; [intros q [<- | []]; reflexivity | ]. constructor; [intros q [] | constructor].
  - reflexivity.
  - left. reflexivity.
Qed.
Lemma unique_macro : ~ C96_unique_claim false.
Proof.
  intros C. assert (X : [(Loop 0 0 1, 1); (Loop 1 2 3, 2)] = [(Loop 1 2 3, 1); (Loop 0 0 1, 2)]); [ | discriminate X].
  apply (C macroText (pLoops macroP) (pLoops macroP)).
  - discriminate.
  - apply Permutation_refl.
  - exists [Loop 0 0 1; Loop 1 2 3]. split; [ | reflexivity]. split; [apply Permutation_refl | ].
    constructor; [intros q [<- | []]; reflexivity | ]. constructor; [intros q [] | constructor].
  - exists [Loop 1 2 3; Loop 0 0 1]. split; [ | reflexivity]. split; [apply perm_swap | ].
    constructor; [intros q [<- | []]; reflexivity | ]. constructor; [intros q [] | constructor].
Qed.

(** The body of a loop is in another file: lines 8 and 9 of a.c, lines 1 and 2 of b.h. *)
Definition fileText (t : nat) : token :=
  match t with 0 => Token 0 8 1 8 1 false | 1 => Token 1 1 1 1 1 false | 2 => Token 1 2 1 2 1 false | _ => Token 0 (6 + t) 1 (6 + t) 1 false end.
Definition fileP : program := Program [Loop 0 0 3; Loop 1 1 2] oLast.
Lemma file_wf : wellFormed fileP.
Proof.
  split; [ | split].
  - constructor; [intros [X | []]; discriminate X | ]. constructor; [intros [] | constructor].
  - intros a [<- | [<- | []]]; cbn; lia.
  - intros a b [<- | [<- | []]] [<- | [<- | []]] N; try contradiction; right; [right | left]; split; cbn; lia.
Qed.
Lemma file_printed : printed 0 fileText.
Proof.
  intros t t' L F F'. left. destruct t as [ | [ | [ | t]]]; try discriminate F; destruct t' as [ | [ | [ | t']]]; try discriminate F'; cbn; lia.
Qed.
Lemma file_separate : separate fileP fileText.
Proof.
  intros t t' [a [Ha Ht]] [b [Hb Ht']] N F L. exfalso. apply N.
  destruct Ha as [<- | [<- | []]], Hb as [<- | [<- | []]]; cbn in Ht, Ht';
    destruct Ht as [-> | ->], Ht' as [-> | ->]; try reflexivity; discriminate.
Qed.
Lemma file_answer : answer fileText (pLoops fileP) [(Loop 1 1 2, 1); (Loop 0 0 3, 1)].
Proof.
  exists [Loop 1 1 2; Loop 0 0 3]. split; [ | reflexivity]. split; [apply perm_swap | ].
  constructor; [intros q [<- | []]; reflexivity | ]. constructor; [intros q [] | constructor].
Qed.
Lemma level_file : ~ C96_level_claim true true false.
Proof.
  intros C. assert (X : 1 = 1 + depth fileP (Loop 1 1 2)); [ | discriminate X].
  apply (C fileP 0 fileText [(Loop 1 1 2, 1); (Loop 0 0 3, 1)]).
  - exact file_wf.
  - exact file_printed.
  - intros _ a _. reflexivity.
  - intros _. exact file_separate.
  - discriminate.
  - exact file_answer.
  - left. reflexivity.
Qed.
Lemma order_file : ~ C96_order_claim true false.
Proof.
  intros C. assert (X : oFirst (Loop 1 1 2) < oFirst (Loop 0 0 3)); [ | cbn in X; lia].
  apply (C fileP 0 fileText [(Loop 1 1 2, 1); (Loop 0 0 3, 1)]) with (l := []) (n := 1) (k := 1) (r := [(Loop 0 0 3, 1)]).
  - exact file_wf.
  - exact file_printed.
  - intros _. exact file_separate.
  - discriminate.
  - exact file_answer.
  - reflexivity.
  - left. reflexivity.
Qed.
