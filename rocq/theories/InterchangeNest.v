(** Proofs about the interchange of loops: checks and a new order. *)
From Coq Require Import ZArith List Bool Lia Permutation.
From Verif Require Import CanonModel CanonSpec InterchangeModel InterchangeSpec InterchangeProof InterchangeExec.
Import ListNotations.
Local Open Scope nat_scope.

(** * Perfect loops *)
Section StmtInd.
Variable P : stmt -> Prop.
Variable Pfor : forall f b, P b -> P (SFor f b).
Variable Pblock : forall l, Forall P l -> P (SBlock l).
Variable Pother : forall l, Forall P l -> P (SOther l).
Fixpoint stmt_ind2 (s : stmt) : P s :=
  match s with
  | SFor f b => Pfor f b (stmt_ind2 b)
  | SBlock l => Pblock l ((fix go l : Forall P l := match l with [] => Forall_nil P | s :: l => Forall_cons s (stmt_ind2 s) (go l) end) l)
  | SOther l => Pother l ((fix go l : Forall P l := match l with [] => Forall_nil P | s :: l => Forall_cons s (stmt_ind2 s) (go l) end) l)
  end.
End StmtInd.
Definition sum (l : list nat) : nat := fold_right Nat.add 0 l.
Fixpoint tops (s : stmt) : nat := match s with SFor _ _ => 1 | SBlock l | SOther l => sum (map tops l) end.
Fixpoint other (s : stmt) : bool := match s with SFor _ _ => false | SBlock l => existsb other l | SOther _ => true end.
Definition good (b : stmt) : bool := (Nat.eqb (tops b) 1 && negb (other b)) || Nat.eqb (tops b) 0.
Fixpoint perfects (s : stmt) : list nat :=
  match s with
  | SFor f b => perfects b ++ (if good b then [f] else [])
  | SBlock l | SOther l => flat_map perfects l
  end.
Definition visitL := fix visitL (l : list stmt) (n : nat) (t : bool) : nat * bool * list nat :=
  match l with
  | [] => (n, t, [])
  | s :: l => let r := visit s n t in let q := visitL l (fst (fst r)) (snd (fst r)) in (fst q, snd r ++ snd q)
  end.
Lemma visitL_spec l : Forall (fun s => forall n t, visit s n t = (n + tops s, t || other s, perfects s)) l ->
  forall n t, visitL l n t = (n + sum (map tops l), t || existsb other l, flat_map perfects l).
Proof.
  induction 1 as [|s l Hs Hl IH]; intros n t; cbn [visitL map sum fold_right existsb flat_map]; [now rewrite Nat.add_0_r, orb_false_r|].
  rewrite Hs. cbn [fst snd]. fold visitL. rewrite IH. cbn [fst snd]. fold (sum (map tops l)). now rewrite Nat.add_assoc, orb_assoc.
Qed.
Lemma visit_spec s : forall n t, visit s n t = (n + tops s, t || other s, perfects s).
Proof.
  induction s as [f b IH|l IH|l IH] using stmt_ind2; intros n t.
  - cbn [visit tops other perfects]. rewrite IH. cbn [fst snd]. unfold good. rewrite Nat.add_1_r, orb_false_r. reflexivity.
  - cbn [visit tops other perfects]. fold visitL. now apply visitL_spec.
  - cbn [visit tops other perfects]. fold visitL. rewrite (visitL_spec l IH). now rewrite orb_true_r.
Qed.
Lemma sum_zero l : sum l = 0 <-> forall x, In x l -> x = 0.
Proof.
  induction l as [|a l IH]; cbn [sum fold_right]; [firstorder|]. fold (sum l). split.
  - intros H x [<-|Hx]; [lia|]. apply IH; [lia|exact Hx].
  - intros H. rewrite (H a) by now left. apply IH. intros x Hx. apply H. now right.
Qed.
Lemma flat_map_nil {A B} (g : A -> list B) l : flat_map g l = [] <-> forall x, In x l -> g x = [].
Proof.
  induction l as [|a l IH]; cbn [flat_map]; [firstorder|]. split.
  - intros H x [<-|Hx]; apply app_eq_nil in H; [tauto|]. apply IH; tauto.
  - intros H. rewrite (H a) by now left. apply IH. intros x Hx. apply H. now right.
Qed.
Lemma tops_zero s : tops s = 0 <-> loops s = [].
Proof.
  induction s as [f b IH|l IH|l IH] using stmt_ind2; cbn [tops loops]; [split; discriminate| |];
    rewrite sum_zero, flat_map_nil; rewrite Forall_forall in IH; (split; intros H x Hx).
  - apply IH; [exact Hx|]. apply H. now apply in_map.
  - apply in_map_iff in Hx. destruct Hx as (y & <- & Hy). apply IH; auto.
  - apply IH; [exact Hx|]. apply H. now apply in_map.
  - apply in_map_iff in Hx. destruct Hx as (y & <- & Hy). apply IH; auto.
Qed.
Lemma flatten_other s : other s = false -> length (flatten s) = tops s /\ forall x, In x (flatten s) -> exists g b, x = SFor g b.
Proof.
  induction s as [f b IH|l IH|l IH] using stmt_ind2; cbn [other flatten tops]; intros H; [|  |discriminate].
  - split; [reflexivity|]. intros x [<-|[]]. eauto.
  - induction IH as [|s l Hs Hl IHl]; cbn [flat_map map sum fold_right existsb] in *; [split; [reflexivity|intros x []]|].
    apply orb_false_iff in H. destruct H as [H1 H2]. destruct (Hs H1) as [A1 A2]. destruct (IHl H2) as [A3 A4]. fold (sum (map tops l)). rewrite app_length.
    split; [lia|]. intros x Hx. apply in_app_iff in Hx. destruct Hx; auto.
Qed.
Lemma flatten_shape s : forall x, In x (flatten s) -> match x with SBlock _ => False | _ => True end.
Proof.
  induction s as [f b IH|l IH|l IH] using stmt_ind2; cbn [flatten].
  - intros x [<-|[]]. exact Logic.I.
  - intros x Hx. apply in_flat_map in Hx. destruct Hx as (y & Hy & Hx). rewrite Forall_forall in IH. eapply IH; eauto.
  - intros x [<-|[]]. exact Logic.I.
Qed.
Lemma flatten_single s g b : flatten s = [SFor g b] -> tops s = 1 /\ other s = false /\ loops s = g :: loops b /\ (forall f c, inside f c (SFor g b) -> inside f c s).
Proof.
  revert g b. induction s as [f c IH|l IH|l IH] using stmt_ind2; cbn [flatten]; intros g b H.
  - injection H as -> ->. cbn. auto.
  - assert (Q : forall l, Forall (fun s => forall g b, flatten s = [SFor g b] -> tops s = 1 /\ other s = false /\ loops s = g :: loops b /\ (forall f c, inside f c (SFor g b) -> inside f c s)) l ->
      Forall (fun s => flatten s = [] -> tops s = 0 /\ other s = false /\ loops s = []) l ->
      (flat_map flatten l = [] -> sum (map tops l) = 0 /\ existsb other l = false /\ flat_map loops l = []) /\
      (flat_map flatten l = [SFor g b] -> sum (map tops l) = 1 /\ existsb other l = false /\ flat_map loops l = g :: loops b /\ (forall f c, inside f c (SFor g b) -> exists s, In s l /\ inside f c s))).
    { clear. induction l as [|s l IH]; intros F F0; [split; [cbn; auto|discriminate]|]. inversion F as [|? ? F1 F2]; subst. inversion F0 as [|? ? F3 F4]; subst.
      destruct (IH F2 F4) as [I1 I2]. cbn [flat_map map sum fold_right existsb]. fold (sum (map tops l)). split; intros H.
      - apply app_eq_nil in H. destruct H as [H1 H2]. destruct (F3 H1) as (-> & -> & ->). destruct (I1 H2) as (-> & -> & ->). auto.
      - destruct (flatten s) as [|x xs] eqn:E.
        + destruct (F3 eq_refl) as (-> & -> & ->). destruct (I2 H) as (A1 & A2 & A3 & A4). cbn [app orb]. rewrite A1, A2, A3. repeat split; auto.
          intros f c K. destruct (A4 f c K) as (s' & Hs & K'). exists s'. split; [now right|exact K'].
        + cbn [app] in H. injection H as -> H. apply app_eq_nil in H. destruct H as [-> H]. destruct (F1 g b eq_refl) as (-> & -> & -> & A4).
          destruct (I1 H) as (-> & -> & ->). cbn [orb]. rewrite app_nil_r. repeat split; auto. intros f c K. exists s. split; [now left|auto]. }
    assert (Q0 : forall s, flatten s = [] -> tops s = 0 /\ other s = false /\ loops s = []).
    { clear. induction s as [f c IH|l IH|l IH] using stmt_ind2; cbn [flatten tops other loops]; intros H; [discriminate| |discriminate].
      induction IH as [|s l Hs Hl IHl]; cbn [flat_map map sum fold_right existsb] in *; [auto|]. fold (sum (map tops l)). apply app_eq_nil in H. destruct H as [H1 H2].
      destruct (Hs H1) as (-> & -> & ->). destruct (IHl H2) as (-> & -> & ->). auto. }
    destruct (Q l IH) as [_ Q2]; [apply Forall_forall; auto|]. destruct (Q2 H) as (A1 & A2 & A3 & A4). cbn [tops other loops]. repeat split; auto.
    intros f c K. destruct (A4 f c K) as (s & Hs & K'). eapply in_block; eauto.
  - discriminate.
Qed.
Lemma good_spec b : good b = true <-> loops b = [] \/ exists g c, flatten b = [SFor g c].
Proof.
  unfold good. rewrite orb_true_iff, andb_true_iff, negb_true_iff, !Nat.eqb_eq, tops_zero. split.
  - intros [[H1 H2]|H]; [right|now left]. destruct (flatten_other b H2) as [L A]. rewrite H1 in L. destruct (flatten b) as [|x [|y l]]; try discriminate.
    destruct (A x) as (g & c & ->); [now left|]. eauto.
  - intros [H|(g & c & H)]; [now right|]. left. destruct (flatten_single b g c H) as (A1 & A2 & _). auto.
Qed.
Lemma perfects_spec s f : In f (perfects s) <-> exists b, inside f b s /\ good b = true.
Proof.
  revert f. induction s as [g b IH|l IH|l IH] using stmt_ind2; intros f; cbn [perfects].
  - rewrite in_app_iff, IH. split.
    + intros [(c & H1 & H2)|H]; [exists c; split; [now apply in_for|exact H2]|]. destruct (good b) eqn:E; [|destruct H]. destruct H as [->|[]]. exists b. split; [apply in_self|exact E].
    + intros (c & H1 & H2). inversion H1; subst; [right; rewrite H2; now left|left; eauto].
  - rewrite in_flat_map. rewrite Forall_forall in IH. split.
    + intros (s & Hs & Hf). apply IH in Hf; [|exact Hs]. destruct Hf as (c & H1 & H2). exists c. split; [eapply in_block; eauto|exact H2].
    + intros (c & H1 & H2). inversion H1; subst. exists s. split; [assumption|]. apply IH; eauto.
  - rewrite in_flat_map. rewrite Forall_forall in IH. split.
    + intros (s & Hs & Hf). apply IH in Hf; [|exact Hs]. destruct Hf as (c & H1 & H2). exists c. split; [eapply in_other; eauto|exact H2].
    + intros (c & H1 & H2). inversion H1; subst. exists s. split; [assumption|]. apply IH; eauto.
Qed.
Theorem perfect_spec s f : In f (perfectLoops s) <-> exists b, inside f b s /\ (loops b = [] \/ exists g c, flatten b = [SFor g c]).
Proof.
  unfold perfectLoops. rewrite visit_spec. cbn [snd]. rewrite perfects_spec. split; intros (b & H1 & H2); exists b; (split; [exact H1|]); now apply good_spec.
Qed.
Lemma inside_loops f b s : inside f b s -> In f (loops s).
Proof. induction 1; cbn [loops]; [now left|now right| |]; apply in_flat_map; eauto. Qed.
Lemma NoDup_app_inv {A} (l l' : list A) : NoDup (l ++ l') -> NoDup l /\ NoDup l' /\ forall x, In x l -> ~ In x l'.
Proof.
  induction l as [|a l IH]; cbn [app]; intros H; [repeat split; [constructor|exact H|intros x []]|]. inversion H; subst. destruct (IH H3) as (A1 & A2 & A3).
  split; [constructor; [|exact A1]; intros K; apply H2, in_or_app; now left|]. split; [exact A2|]. intros x [<-|Hx]; [|auto]. intros K. apply H2, in_or_app. now right.
Qed.
Lemma inside_unique s : NoDup (loops s) -> forall f b c, inside f b s -> inside f c s -> b = c.
Proof.
  assert (QL : forall l, Forall (fun s => NoDup (loops s) -> forall f b c, inside f b s -> inside f c s -> b = c) l -> NoDup (flat_map loops l) ->
    forall f b c s s', In s l -> In s' l -> inside f b s -> inside f c s' -> b = c).
  { induction 1 as [|a l Ha Hl IH]; cbn [flat_map]; intros D f b c s1 s2 H1 H2 K1 K2; [destruct H1|]. destruct (NoDup_app_inv _ _ D) as (D1 & D2 & D3).
    destruct H1 as [<-|H1], H2 as [<-|H2].
    - exact (Ha D1 f b c K1 K2).
    - exfalso. eapply D3; [eapply inside_loops; exact K1|]. apply in_flat_map. exists s2. split; [exact H2|]. eapply inside_loops; eauto.
    - exfalso. eapply D3; [eapply inside_loops; exact K2|]. apply in_flat_map. exists s1. split; [exact H1|]. eapply inside_loops; eauto.
    - exact (IH D2 f b c s1 s2 H1 H2 K1 K2). }
  induction s as [g b0 IH|l IH|l IH] using stmt_ind2; cbn [loops]; intros D f b c H1 H2.
  - inversion D as [|? ? N1 N2]; subst.
    assert (K : forall b', inside f b' (SFor g b0) -> (f = g /\ b' = b0) \/ inside f b' b0) by (intros b' K; inversion K; subst; auto).
    destruct (K b H1) as [[E ->]|K1], (K c H2) as [[E' ->]|K2]; [reflexivity| | |eapply IH; eauto]; subst g; exfalso; apply N1; eapply inside_loops; eauto.
  - assert (K : forall b', inside f b' (SBlock l) -> exists s', In s' l /\ inside f b' s') by (intros b' K; inversion K; subst; eauto).
    destruct (K b H1) as (s1 & A1 & B1), (K c H2) as (s2 & A2 & B2). exact (QL l IH D f b c s1 s2 A1 A2 B1 B2).
  - assert (K : forall b', inside f b' (SOther l) -> exists s', In s' l /\ inside f b' s') by (intros b' K; inversion K; subst; eauto).
    destruct (K b H1) as (s1 & A1 & B1), (K c H2) as (s2 & A2 & B2). exact (QL l IH D f b c s1 s2 A1 A2 B1 B2).
Qed.
Lemma inside_trans f b g c s : inside f b s -> inside g c b -> inside g c s.
Proof. induction 1; intros H'; [now apply in_for|apply in_for; auto|eapply in_block; eauto|eapply in_other; eauto]. Qed.
Lemma perfect_nest prog n : forall f body, NoDup (loops prog) -> inside f body prog -> n < length (loops (SFor f body)) ->
  (forall J g, J < n -> nth_error (loops (SFor f body)) J = Some g -> In g (perfectLoops prog)) ->
  exists b, nest (SFor f body) (firstn (S n) (loops (SFor f body))) b.
Proof.
  induction n as [|n IH]; intros f body D Hi L Hp; [exists body; cbn; constructor|].
  pose proof (Hp 0 f ltac:(lia) eq_refl) as Pf. apply perfect_spec in Pf. destruct Pf as (c & Hc & Cc). rewrite (inside_unique prog D f c body Hc Hi) in Cc.
  cbn [loops length] in L. destruct Cc as [E|(g & c' & E)]; [rewrite E in L; cbn in L; lia|].
  destruct (flatten_single body g c' E) as (_ & _ & EL & In'). rewrite EL in L. cbn [loops length] in *.
  assert (Hi' : inside g c' prog). { apply (inside_trans f body); [exact Hi|]. apply In', in_self. }
  destruct (IH g c' D Hi') as (b & Hb); [lia| |].
  - intros J h HJ Hn. apply (Hp (S J) h); [lia|]. cbn [nth_error]. rewrite EL. exact Hn.
  - exists b. cbn [firstn]. rewrite EL. econstructor; [exact E|exact Hb].
Qed.

(** * Checks *)
Lemma checkAll_true C info strict fuel inds MaxIdx n : forall I p, checkAll C info strict fuel inds n I MaxIdx p = VOk true ->
  p = true /\ (forall J, I <= J <= I + n -> checkLoop C info strict fuel inds J MaxIdx = VOk true) /\
  (forall J, I <= J < I + n -> exists i, nth_error inds J = Some i /\ kNotPerfect i = false).
Proof.
  induction n as [|n IH]; intros I p H; cbn [checkAll] in H.
  - destruct (checkLoop C info strict fuel inds I MaxIdx) as [| |b] eqn:E; try discriminate. injection H as H. apply andb_true_iff in H. destruct H as [-> ->].
    split; [reflexivity|]. split; [|intros J K; lia]. intros J HJ. replace J with I by lia. exact E.
  - destruct (nth_error inds I) as [i|] eqn:Ei; [|discriminate]. destruct (kNotPerfect i) eqn:Ek.
    + destruct (IH _ _ H) as [K _]. discriminate.
    + destruct (checkLoop C info strict fuel inds I MaxIdx) as [| |b] eqn:E; try discriminate. destruct (IH _ _ H) as (K & A1 & A2).
      apply andb_true_iff in K. destruct K as [-> ->]. split; [reflexivity|]. split.
      * intros J HJ. destruct (Nat.eq_dec J I) as [->|Ne]; [exact E|]. apply A1. lia.
      * intros J HJ. destruct (Nat.eq_dec J I) as [->|Ne]; [eauto|]. apply A2. lia.
Qed.
Definition traitOk (var : nat) (t : trait) : Prop :=
  tCovered t = true -> tNoDep t = true \/ tPrivate t = true \/ tReduction t = true \/ (tInduction t = true /\ tScalar t = Some var) \/ tSecond t = true.
Lemma depLoop_spec var ts : forall d0 p0 d p, depLoop var ts d0 p0 = (d, p, false) ->
  (forall t, In t ts -> traitOk var t) /\ (d = d0 \/ exists t, In t ts /\ d = Some (tNode t) /\ tInduction t = true /\ tScalar t = Some var).
Proof.
  induction ts as [|t ts IH]; intros d0 p0 d p H; cbn [depLoop] in H; [injection H as <- <-; split; [intros t []|now left]|].
  assert (Step : forall d1 p1, traitOk var t -> (d1 = d0 \/ d1 = Some (tNode t) /\ tInduction t = true /\ tScalar t = Some var) -> depLoop var ts d1 p1 = (d, p, false) ->
    (forall t0, In t0 (t :: ts) -> traitOk var t0) /\ (d = d0 \/ exists t0, In t0 (t :: ts) /\ d = Some (tNode t0) /\ tInduction t0 = true /\ tScalar t0 = Some var)).
  { intros d1 p1 Ht Hd E. destruct (IH _ _ _ _ E) as [A1 A2]. split; [intros t0 [<-|K]; auto|].
    destruct A2 as [->|(t0 & K1 & K2)]; [|right; exists t0; split; [now right|exact K2]]. destruct Hd as [->|(-> & K1 & K2)]; [now left|]. right. exists t. split; [now left|auto]. }
  destruct (negb (tCovered t) || tNoDep t || (tPrivate t || tReduction t)) eqn:E0.
  - eapply Step; [|now left|exact H]. intros K. rewrite K in E0. cbn [negb orb] in E0. apply orb_true_iff in E0. rewrite orb_true_iff in E0. tauto.
  - destruct (tInduction t) eqn:Ei.
    + cbn [orb] in H. destruct (tScalar t) as [v|] eqn:Es; [|discriminate]. destruct (Nat.eqb_spec v var) as [->|]; [|discriminate].
      eapply Step; [|right; auto|exact H]. intros _. auto 10.
    + cbn [orb] in H. destruct (tSecond t) eqn:E2; [|discriminate]. destruct (tScalar t) as [v|]; [|discriminate].
      eapply Step; [|now left|exact H]. intros _. auto 10.
Qed.
Lemma accessedInHeaders_false C info d l fuel is : accessedInHeaders C info d l fuel is = Some false -> forall i, In i is ->
  accessedInO C d fuel (fStart (info (iFor i))) = Some false /\ accessedInO C d fuel (fEnd (info (iFor i))) = Some false /\ accessedInStep C d l fuel (fStep (info (iFor i))) = Some false.
Proof.
  induction is as [|a is IH]; intros H i Hi; [destruct Hi|]. cbn [accessedInHeaders] in H.
  destruct (accessedInO C d fuel (fStart (info (iFor a)))) as [[|]|] eqn:E1; try discriminate. cbn [orElse] in H.
  destruct (accessedInO C d fuel (fEnd (info (iFor a)))) as [[|]|] eqn:E2; try discriminate. cbn [orElse] in H.
  destruct (accessedInStep C d l fuel (fStep (info (iFor a)))) as [[|]|] eqn:E3; try discriminate. cbn [orElse] in H.
  destruct Hi as [<-|Hi]; auto.
Qed.
Lemma nth_firstn {A} (l : list A) n J : J < n -> nth_error (firstn n l) J = nth_error l J.
Proof. revert n J. induction l as [|a l IH]; intros [|n] [|J] H; try lia; cbn [firstn nth_error]; auto. apply IH. lia. Qed.
Lemma nth_skipn {A} (l : list A) k J : nth_error (skipn k l) J = nth_error l (k + J).
Proof. revert k. induction l as [|a l IH]; intros [|k]; cbn [skipn Nat.add nth_error]; auto. now destruct J. Qed.
Lemma nth_firstn_skipn {A} (l : list A) n k J x : k <= J < k + n -> nth_error l J = Some x -> In x (firstn n (skipn k l)).
Proof.
  intros HJ H. apply nth_error_In with (n := J - k). rewrite nth_firstn by lia. rewrite nth_skipn. replace (k + (J - k)) with J by lia. exact H.
Qed.

(** * New order *)
Lemma position_spec {A} (p : A -> bool) l : forall k, position p l = Some k -> exists x, nth_error l k = Some x /\ p x = true /\ forall j y, j < k -> nth_error l j = Some y -> p y = false.
Proof.
  induction l as [|a l IH]; intros k H; cbn [position] in H; [discriminate|]. destruct (p a) eqn:Ep.
  - injection H as <-. exists a. split; [reflexivity|]. split; [exact Ep|]. intros j y K. lia.
  - destruct (position p l) as [k'|] eqn:E; [|discriminate]. injection H as <-. destruct (IH k' eq_refl) as (x & A1 & A2 & A3). exists x. split; [exact A1|]. split; [exact A2|].
    intros [|j] y K Hy; [now injection Hy as <-|]. eapply A3; [|exact Hy]. lia.
Qed.
Lemma matchSwaps_max name inds swaps : forall vals M vals' M', matchSwaps name inds swaps vals M = Some (vals', M') -> M < length inds -> M' < length inds.
Proof.
  induction swaps as [|w swaps IH]; intros vals M vals' M' H L; cbn [matchSwaps] in H; [injection H as <- <-; exact L|].
  destruct (position _ inds) as [k|] eqn:E; [|discriminate]. destruct (position_spec _ _ _ E) as (i & Ei & _). rewrite Ei in H. destruct (iVar i) as [v|]; [|discriminate].
  eapply IH; [exact H|]. assert (k < length inds) by (apply nth_error_Some; congruence). lia.
Qed.
Lemma setNth_perm {A} (l : list A) : forall i x y, nth_error l i = Some x -> Permutation (y :: l) (x :: setNth l i y).
Proof.
  induction l as [|a l IH]; intros [|i] x y H; try discriminate; cbn [nth_error setNth] in *.
  - injection H as ->. apply perm_swap.
  - apply perm_trans with (a :: y :: l); [apply perm_swap|]. apply perm_trans with (a :: x :: setNth l i y); [apply perm_skip, IH, H|apply perm_swap].
Qed.
Lemma setNth_nth {A} (l : list A) : forall i j y, i < length l -> nth_error (setNth l i y) j = if Nat.eqb i j then Some y else nth_error l j.
Proof. induction l as [|a l IH]; intros [|i] [|j] y L; cbn [length setNth nth_error Nat.eqb] in *; try lia; auto. apply IH. lia. Qed.
Lemma swapItems_perm {A} (l l' : list A) i j : swapItems l i j = Some l' -> Permutation l l'.
Proof.
  unfold swapItems. destruct (nth_error l i) as [x|] eqn:Ei; [|discriminate]. destruct (nth_error l j) as [y|] eqn:Ej; [|discriminate]. intros H. injection H as <-.
  apply (Permutation_cons_inv (a := y)). apply perm_trans with (x :: setNth l i y); [now apply setNth_perm|]. apply setNth_perm.
  rewrite setNth_nth by (apply nth_error_Some; congruence). destruct (Nat.eqb_spec i j); [reflexivity|exact Ej].
Qed.
Lemma newOrder_perm n : forall vals order order', length vals <= n -> newOrder vals order = Some order' -> Permutation order order'.
Proof.
  induction n as [|n IH]; intros vals order order' L H.
  - destruct vals; [|cbn in L; lia]. cbn in H. now injection H as <-.
  - destruct vals as [|a [|b vals]]; cbn [newOrder] in H; [now injection H as <-|discriminate|].
    destruct (position (isSome a) order) as [i|]; [|discriminate]. destruct (position (isSome b) order) as [j|]; [|discriminate].
    destruct (swapItems order i j) as [o|] eqn:E; [|discriminate]. eapply perm_trans; [eapply swapItems_perm; exact E|]. eapply IH; [|exact H]. cbn in L. lia.
Qed.
Lemma optEq_spec a b : optEq a b = true <-> a = b.
Proof. destruct a as [x|], b as [y|]; cbn; split; intros H; try discriminate; auto; [apply Nat.eqb_eq in H; now subst|injection H as ->; apply Nat.eqb_refl]. Qed.
Lemma headersOf_spec inds order : forall I hs, headersOf inds order I = Some hs -> length hs = length order /\ forall J o, nth_error order J = Some o ->
  exists i, nth_error hs J = Some (iFor i) /\ iVar i = o /\ (nth_error inds (I + J) = Some i \/ exists k, position (fun j => optEq (iVar j) o) inds = Some k /\ nth_error inds k = Some i).
Proof.
  induction order as [|o order IH]; intros I hs H; cbn [headersOf] in H; [injection H as <-; split; [reflexivity|intros [|J] o K; discriminate]|].
  destruct (headersOf inds order (S I)) as [hs'|] eqn:E; [|discriminate]. destruct (nth_error inds I) as [i|] eqn:Ei; [|discriminate]. destruct (IH _ _ E) as [L A].
  assert (Q : forall h, hs = h :: hs' -> (exists i, h = iFor i /\ iVar i = o /\ (nth_error inds I = Some i \/ exists k, position (fun j => optEq (iVar j) o) inds = Some k /\ nth_error inds k = Some i)) ->
    length hs = length (o :: order) /\ forall J o0, nth_error (o :: order) J = Some o0 ->
    exists i, nth_error hs J = Some (iFor i) /\ iVar i = o0 /\ (nth_error inds (I + J) = Some i \/ exists k, position (fun j => optEq (iVar j) o0) inds = Some k /\ nth_error inds k = Some i)).
  { intros h -> (i' & -> & K1 & K2). split; [cbn [length]; congruence|]. intros [|J] o0 HJ; cbn [nth_error] in *.
    - injection HJ as <-. rewrite Nat.add_0_r. eauto.
    - destruct (A J o0 HJ) as (i2 & B1 & B2 & B3). exists i2. replace (I + S J) with (S I + J) by lia. auto. }
  destruct (optEq o (iVar i)) eqn:Eo.
  - injection H as <-. eapply Q; [reflexivity|]. exists i. apply optEq_spec in Eo. auto.
  - destruct (position (fun j => optEq (iVar j) o) inds) as [k|] eqn:Ek; [|discriminate]. destruct (position_spec _ _ _ Ek) as (j & Ej & Pj & _). rewrite Ej in H. injection H as <-.
    eapply Q; [reflexivity|]. exists j. apply optEq_spec in Pj. split; [reflexivity|]. split; [exact Pj|]. right. exists k. auto.
Qed.
Lemma entry_for info perfect f : iFor (entry info perfect true f) = f.
Proof. unfold entry. destruct (fCanonical (info f)); [|reflexivity]. destruct (fDeps (info f)); reflexivity. Qed.
Lemma entry_var info perfect f : iVar (entry info perfect true f) = if fCanonical (info f) then Some (fVar (info f)) else None.
Proof. unfold entry. destruct (fCanonical (info f)); [|reflexivity]. destruct (fDeps (info f)); reflexivity. Qed.
Lemma entry_perfect info perfect f : kNotPerfect (entry info perfect true f) = false -> perfect f = true.
Proof. unfold entry. destruct (fCanonical (info f)); [|discriminate]. destruct (fDeps (info f)); cbn; apply negb_false_iff. Qed.
Definition unused C d l fuel (i : forInfo) : Prop :=
  accessedInO C d fuel (fStart i) = Some false /\ accessedInO C d fuel (fEnd i) = Some false /\ accessedInStep C d l fuel (fStep i) = Some false.
Lemma checkLoop_true C info perfect fuel ls J M : checkLoop C info true fuel (map (entry info perfect true) ls) J M = VOk true ->
  exists f, nth_error ls J = Some f /\ fCanonical (info f) = true /\ exists ts d p, fDeps (info f) = Some ts /\ depLoop (fVar (info f)) ts None [] = (Some d, p, false) /\
    forall K g, J < K <= M -> nth_error ls K = Some g -> unused C d f fuel (info g).
Proof.
  unfold checkLoop. rewrite nth_error_map. destruct (nth_error ls J) as [f|] eqn:Ef; [|discriminate]. cbn [option_map].
  intros H. exists f. split; [reflexivity|]. revert H. unfold entry at 1 2 3 4 5 6 7. destruct (fCanonical (info f)); [|cbn; discriminate].
  destruct (fDeps (info f)) as [ts|]; [|cbn; discriminate]. cbn [kNotCanonical kHasDep negb kNotAnalyzed iPriv iDIM iFor].
  destruct (depLoop (fVar (info f)) ts None []) as [[d p] b] eqn:Ed. cbn [fst snd]. destruct b; [discriminate|]. destruct (checkPrivatizable _ _); [|discriminate]. cbn [negb].
  destruct d as [d|]; [|discriminate]. destruct (accessedInHeaders _ _ _ _ _ _) as [b|] eqn:Ea; [|discriminate]. intros H. injection H as H. apply negb_true_iff in H. subst b.
  split; [reflexivity|]. exists ts, d, p. split; [reflexivity|]. split; [exact Ed|]. intros K g HK Hg.
  destruct (accessedInHeaders_false _ _ _ _ _ _ Ea (entry info perfect true g)) as (A1 & A2 & A3).
  - apply nth_firstn_skipn with (J := K); [lia|]. rewrite nth_error_map, Hg. reflexivity.
  - rewrite entry_for in *. repeat split; assumption.
Qed.
Theorem accepted C info perfect name keyword fuel names s hs : interchange C info perfect name keyword true fuel names s = Done hs -> loops s <> [] ->
  let fs := firstn (length hs) (loops s) in
  0 < length hs <= length (loops s) /\
  (forall J f, nth_error fs J = Some f -> fCanonical (info f) = true /\ exists ts d p, fDeps (info f) = Some ts /\ depLoop (fVar (info f)) ts None [] = (Some d, p, false) /\
    forall K g, J < K -> nth_error fs K = Some g -> unused C d f fuel (info g)) /\
  (forall J f, S J < length hs -> nth_error fs J = Some f -> perfect f = true) /\
  Permutation (map (fun f => fVar (info f)) fs) (map (fun f => fVar (info f)) hs) /\ (forall h, In h hs -> In h fs).
Proof.
  unfold interchange. intros H Hne. destruct (matchSwaps _ _ _ _ _) as [[vals M]|] eqn:Em; [|discriminate].
  destruct (checkAll _ _ _ _ _ _ _ _ _) as [| |[|]] eqn:Ec; try discriminate. destruct (newOrder _ _) as [order|] eqn:Eo; [|discriminate].
  destruct (headersOf _ _ _) as [hs'|] eqn:Eh; [|discriminate]. injection H as ->.
  assert (LM : M < length (loops s)).
  { rewrite <- (map_length (entry info perfect true)). eapply matchSwaps_max; [exact Em|]. rewrite map_length. destruct (loops s); [contradiction|cbn; lia]. }
  destruct (checkAll_true _ _ _ _ _ _ _ _ _ Ec) as (_ & A1 & A2). destruct (headersOf_spec _ _ _ _ Eh) as [L HH].
  pose proof (newOrder_perm _ _ _ _ (le_n _) Eo) as PO.
  assert (LO : length hs = S M). { rewrite L, <- (Permutation_length PO), map_length, firstn_length, map_length. lia. }
  rewrite LO. cbv zeta. set (fs := firstn (S M) (loops s)).
  assert (F : forall J f, nth_error fs J = Some f <-> J <= M /\ nth_error (loops s) J = Some f).
  { intros J f. unfold fs. destruct (le_lt_dec J M) as [Le|Lt]; [rewrite nth_firstn by lia; tauto|].
    split; [|lia]. intros K. exfalso. assert (J < length (firstn (S M) (loops s))) by (apply nth_error_Some; congruence). rewrite firstn_length in *. lia. }
  assert (CAN : forall J f, nth_error fs J = Some f -> fCanonical (info f) = true /\ exists ts d p, fDeps (info f) = Some ts /\ depLoop (fVar (info f)) ts None [] = (Some d, p, false) /\
    forall K g, J < K -> nth_error fs K = Some g -> unused C d f fuel (info g)).
  { intros J f HJ. apply F in HJ. destruct HJ as [LJ HJ]. destruct (checkLoop_true _ _ _ _ _ _ _ (A1 J ltac:(lia))) as (f' & Ef & Ca & ts & d & p & B1 & B2 & B3).
    assert (f' = f) by congruence. subst f'. split; [exact Ca|]. exists ts, d, p. split; [exact B1|]. split; [exact B2|]. intros K g HK Hg. apply F in Hg. apply (B3 K g); [lia|tauto]. }
  assert (EV : map iVar (firstn (S M) (map (entry info perfect true) (loops s))) = map (fun f => Some (fVar (info f))) fs).
  { rewrite firstn_map, map_map. fold fs. apply map_ext_in. intros f Hf. rewrite entry_var. apply In_nth_error in Hf. destruct Hf as (J & HJ). now rewrite (proj1 (CAN J f HJ)). }
  rewrite EV in PO.
  assert (HS : forall J h, nth_error hs J = Some h -> In h fs /\ nth_error order J = Some (Some (fVar (info h)))).
  { intros J h HJ. assert (LJ : J < length hs) by (apply nth_error_Some; congruence). destruct (nth_error order J) as [o|] eqn:Ej; [|apply nth_error_None in Ej; lia].
    destruct (HH J o Ej) as (i & B1 & B2 & B3). assert (h = iFor i) by congruence. subst h.
    assert (Ho : In o (map (fun f => Some (fVar (info f))) fs)). { eapply Permutation_in; [apply Permutation_sym; exact PO|]. eapply nth_error_In; eauto. }
    apply in_map_iff in Ho. destruct Ho as (f & Ef & Hf).
    assert (KI : exists k g, k <= M /\ nth_error (loops s) k = Some g /\ i = entry info perfect true g).
    { destruct B3 as [B3|(k & Pk & Bk)].
      - cbn [Nat.add] in B3. rewrite nth_error_map in B3. destruct (nth_error (loops s) J) as [g|] eqn:Eg; [|discriminate]. injection B3 as <-. exists J, g. repeat split; [lia|exact Eg].
      - rewrite nth_error_map in Bk. destruct (nth_error (loops s) k) as [g|] eqn:Eg; [|discriminate]. injection Bk as <-. exists k, g. split; [|split; [exact Eg|reflexivity]].
        apply In_nth_error in Hf. destruct Hf as (K & HK). pose proof (proj1 (CAN K f HK)) as Cf. apply F in HK. destruct HK as [LK HK].
        destruct (le_lt_dec k M) as [|Lt]; [assumption|]. exfalso. destruct (position_spec _ _ _ Pk) as (x & _ & _ & Px).
        specialize (Px K (entry info perfect true f) ltac:(lia)). rewrite nth_error_map, HK in Px. specialize (Px eq_refl). cbv beta in Px.
        rewrite entry_var, Cf in Px. assert (optEq (Some (fVar (info f))) o = true) by (now apply optEq_spec). congruence. }
    destruct KI as (k & g & Lk & Hg & ->). rewrite entry_for. assert (Hg' : nth_error fs k = Some g) by (apply F; auto). split; [eapply nth_error_In; exact Hg'|].
    rewrite entry_var, (proj1 (CAN k g Hg')) in B2. congruence. }
  split; [lia|]. split; [exact CAN|]. split; [|split].
  - intros J f HJ Hf. apply F in Hf. destruct Hf as [_ Hf]. destruct (A2 J ltac:(lia)) as (i & Ei & Ki). rewrite nth_error_map, Hf in Ei. injection Ei as <-. now apply entry_perfect in Ki.
  - assert (EO : order = map (fun f => Some (fVar (info f))) hs).
    { clear - HS L. revert order HS L. induction hs as [|h hs IH]; intros [|o order] HS L; try discriminate; [reflexivity|]. cbn [map]. f_equal.
      - pose proof (proj2 (HS 0 h eq_refl)) as K. cbn in K. now injection K.
      - apply IH; [|now injection L]. intros J x HJ. destruct (HS (S J) x HJ) as [K1 K2]. split; [exact K1|exact K2]. }
    rewrite EO in PO. rewrite <- (map_map (fun f => fVar (info f)) Some fs), <- (map_map (fun f => fVar (info f)) Some hs) in PO.
    apply Permutation_map_inv in PO. destruct PO as (l3 & E3 & P3). assert (l3 = map (fun f => fVar (info f)) fs \/ True) by now right.
    assert (Inj : forall l l' : list nat, map Some l = map Some l' -> l = l').
    { induction l as [|a l IH]; intros [|b l'] E; try discriminate; [reflexivity|]. injection E as -> E. f_equal. now apply IH. }
    apply Inj in E3. rewrite E3. apply Permutation_sym. exact P3.
  - intros h Hh. apply In_nth_error in Hh. destruct Hh as (J & HJ). exact (proj1 (HS J h HJ)).
Qed.
