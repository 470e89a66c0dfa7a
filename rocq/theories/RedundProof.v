(** Proofs about propagation of traits. *)
From Coq Require Import NArith PeanoNat Bool List Lia Wf_nat Compare_dec.
From Verif Require Import TraitModel RedundModel RedundSpec.
Import ListNotations.
Open Scope nat_scope.

Lemma nodup_snoc (xs : list nat) (x : nat) : NoDup xs -> ~ In x xs -> NoDup (xs ++ [x]).
Proof.
  induction xs as [|y xs IH]; intros Nd N; [constructor; [intros []|constructor]|]. cbn. inversion Nd as [|? ? N1 N2]; subst.
  constructor; [|apply IH; [exact N2|intro Q; apply N; right; exact Q]].
  intro Q. apply in_app_iff in Q as [Q|[Q|[]]]; [exact (N1 Q)|subst y; apply N; left; reflexivity].
Qed.

(** * Chains of parents *)
Section Chain.
  Variable f : nat -> option nat.
  Hypothesis Dec : forall e p, f e = Some p -> p < e.
  Lemma covers_le a e : covers f a e -> a <= e.
  Proof. induction 1 as [|e p E _ IH]; [lia|]. specialize (Dec e p E). lia. Qed.
  Lemma covers_trans a b e : covers f a b -> covers f b e -> covers f a e.
  Proof. intros A B. induction B as [|e p E _ IH]; [exact A|]. exact (CPart f a e p E IH). Qed.
  Lemma covers_step a e : covers f a e -> a = e \/ exists p, f e = Some p /\ covers f a p.
  Proof. intros [|x p E C]; [left; reflexivity|right; exists p; auto]. Qed.
  Lemma covers_linear x y e : covers f x e -> covers f y e -> covers f x y \/ covers f y x.
  Proof.
    intros A. revert y. induction A as [|e p E A IH]; intros y B; [right; exact B|].
    destruct (covers_step y e B) as [->|(p' & E' & B')]; [left; exact (CPart f x e p E A)|].
    rewrite E in E'. injection E' as <-. exact (IH y B').
  Qed.
  Lemma covers_top a e : covers f a e -> a <> e -> exists p, f e = Some p /\ covers f a p.
  Proof. intros C N. destruct (covers_step a e C) as [Q|Q]; [contradiction|exact Q]. Qed.
  Lemma reaches_spec fuel : forall e a, e <= fuel -> reaches f fuel e a = true <-> covers f a e.
  Proof.
    induction fuel as [|fuel IH]; intros e a L; cbn [reaches]; destruct (Nat.eqb_spec e a) as [->|N].
    - split; [intros _; constructor|reflexivity].
    - split; [discriminate|]. intro C. apply covers_le in C. lia.
    - split; [intros _; constructor|reflexivity].
    - destruct (f e) as [p|] eqn:E.
      + rewrite (IH p a) by (specialize (Dec e p E); lia). split; intro C.
        * exact (CPart f a e p E C).
        * destruct (covers_step a e C) as [Q|(p' & E' & C')]; [congruence|]. rewrite E in E'. injection E' as <-. exact C'.
      + split; [discriminate|]. intro C. destruct (covers_step a e C) as [Q|(p' & E' & _)]; congruence.
  Qed.
  Lemma ancestor_spec l r : match ancestor f l r with
    | Some a => (a = r /\ covers f r l) \/ (a = l /\ covers f l r /\ ~ covers f r l)
    | None => ~ covers f r l /\ ~ covers f l r
    end.
  Proof.
    unfold ancestor. destruct (reaches f l l r) eqn:A.
    - left. split; [reflexivity|]. apply (reaches_spec l l r (le_n l)); exact A.
    - assert (NA : ~ covers f r l) by (intro C; apply (reaches_spec l l r (le_n l)) in C; congruence).
      destruct (reaches f r r l) eqn:B.
      + right. split; [reflexivity|]. split; [apply (reaches_spec r r l (le_n r)); exact B|exact NA].
      + split; [exact NA|]. intro C; apply (reaches_spec r r l (le_n r)) in C; congruence.
  Qed.
End Chain.

(** * Representatives *)
Section Rep.
  Variable parent : nat -> option nat.
  Variable nodeOf : nat -> nat.
  Hypothesis Dec : forall e p, parent e = Some p -> p < e.
  Hypothesis Mono : forall e p, parent e = Some p -> nodeOf p <= nodeOf e.
  Definition rep (r e m : nat) : Prop := covers parent m e /\ r <= nodeOf m /\ forall p, parent m = Some p -> nodeOf p < r.
  Lemma mono_covers a e : covers parent a e -> nodeOf a <= nodeOf e.
  Proof. induction 1 as [|e p E _ IH]; [lia|]. specialize (Mono e p E). lia. Qed.
  Lemma rep_via r e c m : covers parent c e -> r <= nodeOf c -> rep r e m <-> rep r c m.
  Proof.
    intros C R. split; intros (A & B & T).
    - split; [|split; assumption]. destruct (covers_linear parent m c e A C) as [Q|Q]; [exact Q|].
      destruct (Nat.eq_dec c m) as [->|N]; [constructor|]. destruct (covers_top parent c m Q N) as (p & E & Q').
      specialize (T p E). apply mono_covers in Q'. lia.
    - split; [exact (covers_trans parent m c e A C)|split; assumption].
  Qed.
  Lemma rep_unique r e m m' : rep r e m -> rep r e m' -> m = m'.
  Proof.
    intros A B. pose proof (proj1 (rep_via r e m m' (proj1 A) (proj1 (proj2 A))) B) as (C & D & _).
    destruct (Nat.eq_dec m' m) as [->|N]; [reflexivity|]. destruct (covers_top parent m' m C N) as (p & E & Q).
    destruct A as (_ & _ & T). specialize (T p E). apply mono_covers in Q. lia.
  Qed.
  Lemma rep_exists r e : r <= nodeOf e -> exists m, rep r e m.
  Proof.
    induction e as [e IH] using lt_wf_ind. intro R. destruct (parent e) as [p|] eqn:E.
    - destruct (le_lt_dec r (nodeOf p)) as [L|L].
      + destruct (IH p (Dec e p E) L) as (m & M). exists m. apply (rep_via r e p m); [exact (CPart parent p e p E (CSelf parent p))|exact L|exact M].
      + exists e. split; [constructor|]. split; [exact R|]. intros p' E'. rewrite E in E'. injection E' as <-. exact L.
    - exists e. split; [constructor|]. split; [exact R|]. intros p' E'. congruence.
  Qed.
  Lemma rep_covers r m e : rep r m m -> r <= nodeOf e -> (rep r e m <-> covers parent m e).
  Proof. intros (_ & A & B) R. split; [intros (C & _); exact C|intro C; split; [exact C|split; assumption]]. Qed.

  (** * Lists of traits *)
  Section Root.
    Variable r : nat.
    Definition occ (l : list item) (m : nat) : Prop := exists e t, In (e, t) l /\ rep r e m.
    Definition sat (l : list item) (m : nat) (k : N) : Prop := forall e t, In (e, t) l -> rep r e m -> N.testbit t k = true.
    Definition eqv (l l' : list item) : Prop := forall m, (occ l m <-> occ l' m) /\ forall k, sat l m k <-> sat l' m k.
    Lemma eqv_refl l : eqv l l.
    Proof. intro m. split; [reflexivity|intro k; reflexivity]. Qed.
    Lemma eqv_sym l l' : eqv l l' -> eqv l' l.
    Proof. intros H m. destruct (H m) as [A B]. split; [symmetry; exact A|intro k; symmetry; exact (B k)]. Qed.
    Lemma eqv_trans l1 l2 l3 : eqv l1 l2 -> eqv l2 l3 -> eqv l1 l3.
    Proof. intros H H' m. destruct (H m) as [A B], (H' m) as [A' B']. split; [rewrite A; exact A'|intro k; rewrite (B k); exact (B' k)]. Qed.
    Lemma eqv_In l l' : (forall x, In x l <-> In x l') -> eqv l l'.
    Proof.
      intros H m. split.
      - split; intros (e & t & I1 & R); exists e, t; (split; [apply H; exact I1|exact R]).
      - intro k. split; intros S1 e t I1 R; apply (S1 e t); [apply H; exact I1|exact R|apply H; exact I1|exact R].
    Qed.
    Lemma occ_app l l' m : occ (l ++ l') m <-> occ l m \/ occ l' m.
    Proof.
      split.
      - intros (e & t & I1 & R). apply in_app_iff in I1 as [I1|I1]; [left|right]; exists e, t; auto.
      - intros [(e & t & I1 & R)|(e & t & I1 & R)]; exists e, t; (split; [apply in_app_iff; auto|exact R]).
    Qed.
    Lemma sat_app l l' m k : sat (l ++ l') m k <-> sat l m k /\ sat l' m k.
    Proof.
      split.
      - intro S1. split; intros e t I1 R; apply (S1 e t); auto; apply in_app_iff; auto.
      - intros [S1 S2] e t I1 R. apply in_app_iff in I1 as [I1|I1]; [exact (S1 e t I1 R)|exact (S2 e t I1 R)].
    Qed.
    Lemma eqv_app a a' b b' : eqv a a' -> eqv b b' -> eqv (a ++ b) (a' ++ b').
    Proof.
      intros A B m. destruct (A m) as [A1 A2], (B m) as [B1 B2]. split; [rewrite !occ_app, A1, B1; reflexivity|].
      intro k. rewrite !sat_app, A2, B2. reflexivity.
    Qed.
    Lemma eqv_swap a b : eqv (a ++ b) (b ++ a).
    Proof. apply eqv_In. intro x. rewrite ?in_app_iff. tauto. Qed.
    Lemma eqv_move e c t : (forall m, rep r e m <-> rep r c m) -> eqv [(e, t)] [(c, t)].
    Proof.
      intros H m. split.
      - split; intros (x & tx & [E|[]] & R); injection E as <- <-; [exists c|exists e]; exists t; (split; [left; reflexivity|apply H; exact R]).
      - intro k. split; intros S1 x tx [E|[]] R; injection E as <- <-; [apply (S1 e t)|apply (S1 c t)]; try (left; reflexivity); apply H; exact R.
    Qed.
    Lemma tand_bit a b k : N.testbit (tAnd a b) k = true <-> N.testbit a k = true /\ N.testbit b k = true.
    Proof. unfold tAnd. rewrite N.land_spec, andb_true_iff. reflexivity. Qed.
    Lemma eqv_meet c i t ti : (forall m, rep r i m <-> rep r c m) -> eqv [(c, t); (i, ti)] [(c, tAnd t ti)].
    Proof.
      intros H m. split.
      - split.
        + intros (x & tx & I1 & R). exists c, (tAnd t ti). split; [left; reflexivity|].
          destruct I1 as [E|[E|[]]]; injection E as <- <-; [exact R|apply H; exact R].
        + intros (x & tx & [E|[]] & R); injection E as <- <-. exists c, t. split; [left; reflexivity|exact R].
      - intro k. split.
        + intros S1 x tx [E|[]] R; injection E as <- <-. apply tand_bit. split; [apply (S1 c t)|apply (S1 i ti)]; try exact R; [left; reflexivity|right; left; reflexivity|apply H; exact R].
        + intros S1 x tx I1 R. destruct I1 as [E|[E|[]]]; injection E as <- <-.
          * exact (proj1 (proj1 (tand_bit t ti k) (S1 c _ (or_introl eq_refl) R))).
          * exact (proj2 (proj1 (tand_bit t ti k) (S1 c _ (or_introl eq_refl) (proj1 (H m) R)))).
    Qed.
    Lemma tand_comm a b : tAnd a b = tAnd b a.
    Proof. apply N.land_comm. Qed.

    Variable Ins : nat -> Prop.
    Hypothesis InsR : forall e, Ins e -> r <= nodeOf e.
    Hypothesis InsRoot : forall e, nodeOf e = r -> Ins e.
    Definition allIns (l : list item) : Prop := forall e t, In (e, t) l -> Ins e.
    Definition top (m : nat) : Prop := Ins m /\ forall p, parent m = Some p -> nodeOf p < r.
    Lemma top_rep m : top m -> rep r m m.
    Proof. intros [A B]. split; [constructor|]. split; [exact (InsR m A)|exact B]. Qed.
    Lemma top_covers c i : top c -> Ins i -> covers parent i c -> i = c.
    Proof.
      intros T Ii C. destruct (Nat.eq_dec i c) as [E|N]; [exact E|]. destruct (covers_top parent i c C N) as (p & E & Q).
      destruct T as [_ T]. specialize (T p E). apply mono_covers in Q. specialize (InsR i Ii). lia.
    Qed.
    Lemma scan_spec rest : forall c t seen D o l' D', scan parent c t seen rest D = (o, l', D') ->
      top c -> allIns (seen ++ rest) -> (forall i ti, In (i, ti) seen -> ~ covers parent c i) ->
      eqv (match o with Some x => x :: l' | None => l' end) ((c, t) :: seen ++ rest) /\
      (forall i ti, In (i, ti) l' -> exists ti', In (i, ti') (seen ++ rest)) /\
      (match o with Some x => fst x = c /\ forall i ti, In (i, ti) l' -> ~ covers parent c i | None => True end) /\
      length l' <= length seen + length rest.
    Proof.
      induction rest as [|[i ti] rest IH]; intros c t seen D o l' D' E T Al Ns; cbn [scan] in E.
      - injection E as <- <- _. split; [|split; [|split]].
        + apply eqv_In. intro x. cbn [In]. rewrite app_nil_r, <- in_rev. reflexivity.
        + intros i ti I1. exists ti. rewrite app_nil_r. apply in_rev. exact I1.
        + split; [reflexivity|]. intros i ti I1. apply (Ns i ti). apply in_rev. exact I1.
        + rewrite rev_length. cbn. lia.
      - assert (Ii : Ins i) by (apply (Al i ti); apply in_app_iff; right; left; reflexivity).
        assert (Meet : forall s, covers parent c i -> eqv ((i, tAnd ti t) :: s) ((c, t) :: (i, ti) :: s)).
        { intros s C. change (eqv ([(i, tAnd ti t)] ++ s) ([(c, t); (i, ti)] ++ s)). apply eqv_app; [|apply eqv_refl].
          assert (H : forall m, rep r i m <-> rep r c m) by (intro m; apply (rep_via r i c m C), InsR, T).
          apply eqv_sym. apply (eqv_trans _ [(c, tAnd t ti)]); [exact (eqv_meet c i t ti H)|]. rewrite (tand_comm ti t). apply eqv_sym, eqv_move, H. }
        assert (Dropped : forall D1, covers parent c i -> (None, rev seen ++ (i, tAnd ti t) :: rest, D1) = (o, l', D') ->
          eqv (match o with Some x => x :: l' | None => l' end) ((c, t) :: seen ++ (i, ti) :: rest) /\
          (forall j tj, In (j, tj) l' -> exists ti', In (j, ti') (seen ++ (i, ti) :: rest)) /\
          (match o with Some x => fst x = c /\ forall i ti, In (i, ti) l' -> ~ covers parent c i | None => True end) /\
          length l' <= length seen + length ((i, ti) :: rest)).
        { intros D1 C Q. injection Q as <- <- _. split; [|split; [|split; [exact Logic.I|]]].
          - apply (eqv_trans _ ((i, tAnd ti t) :: seen ++ rest)).
            + apply eqv_In. intro x. rewrite in_app_iff. cbn [In]. rewrite in_app_iff, <- in_rev. tauto.
            + apply (eqv_trans _ ((c, t) :: (i, ti) :: seen ++ rest)); [apply Meet; exact C|]. apply eqv_In. intro x. cbn [In]. rewrite ?in_app_iff. cbn [In]. tauto.
          - intros j tj I1. apply in_app_iff in I1 as [I1|[I1|I1]].
            + exists tj. apply in_app_iff. left. apply in_rev. exact I1.
            + injection I1 as <- _. exists ti. apply in_app_iff. right; left; reflexivity.
            + exists tj. apply in_app_iff. right; right; exact I1.
          - rewrite app_length, rev_length. apply le_n. }
        destruct (Nat.eqb_spec c i) as [Eci|Nci]; [apply (Dropped D); [subst i; constructor|exact E]|].
        pose proof (ancestor_spec parent Dec c i) as An. destruct (ancestor parent c i) as [a|].
        + destruct An as [[-> C]|(-> & C & NC)].
          * destruct Nci. symmetry. exact (top_covers c i T Ii C).
          * destruct (Nat.eqb_spec c i) as [Q|_]; [contradiction|].
            assert (Al' : allIns (seen ++ rest)).
            { intros e te I1. apply (Al e te). apply in_app_iff in I1 as [I1|I1]; apply in_app_iff; [left|right; right]; exact I1. }
            destruct (IH c (tAnd t ti) seen _ o l' D' E T Al' Ns) as (A1 & A2 & A3 & A4). split; [|split; [|split]].
            -- apply (eqv_trans _ _ _ A1). apply (eqv_trans _ ((c, t) :: (i, ti) :: seen ++ rest)).
               ++ change (eqv ([(c, tAnd t ti)] ++ (seen ++ rest)) ([(c, t); (i, ti)] ++ (seen ++ rest))). apply eqv_app; [|apply eqv_refl].
                  apply eqv_sym, eqv_meet. intro m. apply (rep_via r i c m C), InsR, T.
               ++ apply eqv_In. intro x. cbn [In]. rewrite ?in_app_iff. cbn [In]. tauto.
            -- intros j tj I1. destruct (A2 j tj I1) as (ti' & I2). exists ti'. apply in_app_iff in I2 as [I2|I2]; apply in_app_iff; [left|right; right]; exact I2.
            -- exact A3.
            -- cbn [length]. lia.
        + destruct An as [NC1 NC2].
          assert (Al' : allIns (((i, ti) :: seen) ++ rest)).
          { intros e te I1. apply (Al e te). apply in_app_iff in I1 as [[I1|I1]|I1]; apply in_app_iff; [right; left|left|right; right]; exact I1. }
          destruct (IH c t ((i, ti) :: seen) D o l' D' E T Al') as (A1 & A2 & A3 & A4).
          { intros j tj [I1|I1]; [injection I1 as <- _; exact NC2|exact (Ns j tj I1)]. }
          assert (P : forall x, In x (((i, ti) :: seen) ++ rest) <-> In x (seen ++ (i, ti) :: rest)).
          { intro x. rewrite ?in_app_iff. cbn [In]. tauto. }
          split; [|split; [|split]].
          * apply (eqv_trans _ _ _ A1). apply eqv_In. intro x. cbn [In] in P |- *. rewrite (P x). reflexivity.
          * intros j tj I1. destruct (A2 j tj I1) as (ti' & I2). exists ti'. apply P. exact I2.
          * exact A3.
          * cbn [length] in A4 |- *. lia.
    Qed.
    Lemma climb_spec fuel e : e <= fuel -> nodeOf e = r ->
      covers parent (climb parent nodeOf fuel r e) e /\ nodeOf (climb parent nodeOf fuel r e) = r /\
      forall p, parent (climb parent nodeOf fuel r e) = Some p -> nodeOf p < r.
    Proof.
      revert e. induction fuel as [|fuel IH]; intros e L Ne; cbn [climb].
      - split; [constructor|]. split; [exact Ne|]. intros p E. specialize (Dec e p E). lia.
      - destruct (parent e) as [p|] eqn:E.
        + destruct (Nat.eqb_spec (nodeOf p) r) as [Q|Q].
          * destruct (IH p) as (A & B & C); [specialize (Dec e p E); lia|exact Q|]. split; [exact (CPart parent _ e p E A)|]. split; assumption.
          * split; [constructor|]. split; [exact Ne|]. intros p' E'. rewrite E in E'. injection E' as <-. specialize (Mono e p E). lia.
        + split; [constructor|]. split; [exact Ne|]. intros p' E'. congruence.
    Qed.
    (* memory of other nodes has no parent in a node *)
    Definition ready (l : list item) : Prop := forall e t, In (e, t) l -> nodeOf e = r \/ top e.
    Lemma redundant_spec c rest D o l' D' : removeRedundant parent nodeOf r c rest D = (o, l', D') ->
      allIns (c :: rest) -> ready (c :: rest) ->
      eqv (match o with Some x => x :: l' | None => l' end) (c :: rest) /\
      (forall i ti, In (i, ti) l' -> exists ti', In (i, ti') rest) /\
      (match o with Some x => top (fst x) /\ covers parent (fst x) (fst c) /\ forall i ti, In (i, ti) l' -> ~ covers parent (fst x) i | None => True end) /\
      length l' <= length rest.
    Proof.
      destruct c as [e t]. cbn [removeRedundant fst]. intros E Al Rd.
      assert (Al' : allIns ([] ++ rest)) by (intros x tx I1; apply (Al x tx); right; exact I1).
      destruct (Nat.eqb_spec (nodeOf e) r) as [Ne|Ne].
      - destruct (climb_spec e e (le_n e) Ne) as (C & Nc & Tc).
        assert (T : top (climb parent nodeOf e r e)) by (split; [apply InsRoot; exact Nc|exact Tc]).
        destruct (scan_spec rest _ t [] _ o l' D' E T Al') as (A1 & A2 & A3 & A4); [intros i ti []|].
        split; [|split; [exact A2|split; [|exact A4]]].
        + apply (eqv_trans _ _ _ A1). cbn [app]. change (eqv ([(climb parent nodeOf e r e, t)] ++ rest) ([(e, t)] ++ rest)).
          apply eqv_app; [|apply eqv_refl]. apply eqv_move. intro m. symmetry. apply (rep_via r e _ m C). lia.
        + destruct o as [[m w]|]; [|exact Logic.I]. cbn [fst] in A3 |- *. destruct A3 as [-> A3]. split; [exact T|]. split; [exact C|exact A3].
      - assert (T : top e) by (destruct (Rd e t (or_introl eq_refl)) as [Q|Q]; [contradiction|exact Q]).
        destruct (scan_spec rest e t [] _ o l' D' E T Al') as (A1 & A2 & A3 & A4); [intros i ti []|].
        split; [exact A1|]. split; [exact A2|]. split; [|exact A4].
        destruct o as [[m w]|]; [|exact Logic.I]. cbn [fst] in A3 |- *. destruct A3 as [-> A3]. split; [exact T|]. split; [constructor|exact A3].
    Qed.
    Lemma reduce_spec fuel : forall kept l D l' D', length l <= fuel -> reduce parent nodeOf fuel r kept l D = (l', D') ->
      allIns l -> ready l -> (forall m w, In (m, w) kept -> top m) -> NoDup (map fst kept) ->
      (forall m w i ti, In (m, w) kept -> In (i, ti) l -> ~ covers parent m i) ->
      eqv l' (kept ++ l) /\ (forall m w, In (m, w) l' -> top m) /\ NoDup (map fst l').
    Proof.
      induction fuel as [|fuel IH]; intros kept l D l' D' L E Al Rd Tk Nd Nc.
      - destruct l; [|cbn in L; lia]. cbn in E. injection E as <- _. rewrite app_nil_r. split; [apply eqv_refl|]. split; assumption.
      - destruct l as [|c rest]; cbn [reduce] in E.
        + injection E as <- _. rewrite app_nil_r. split; [apply eqv_refl|]. split; assumption.
        + destruct (removeRedundant parent nodeOf r c rest D) as [[o l1] D1] eqn:R.
          destruct (redundant_spec c rest D o l1 D1 R Al Rd) as (A1 & A2 & A3 & A4).
          assert (Al1 : allIns l1). { intros e t I1. destruct (A2 e t I1) as (t' & I2). apply (Al e t'). right; exact I2. }
          assert (Rd1 : ready l1). { intros e t I1. destruct (A2 e t I1) as (t' & I2). apply (Rd e t'). right; exact I2. }
          cbn [length] in L. destruct o as [[m w]|].
          * cbn [fst] in A3. destruct A3 as (T & Cv & Nm).
            destruct (IH (kept ++ [(m, w)]) l1 D1 l' D') as (B1 & B2 & B3); [lia|exact E|exact Al1|exact Rd1| | | |].
            -- intros m' w' I1. apply in_app_iff in I1 as [I1|[I1|[]]]; [exact (Tk m' w' I1)|injection I1 as <- _; exact T].
            -- rewrite map_app. cbn [map fst]. assert (Nk : ~ In m (map fst kept)).
               { intro Q. apply in_map_iff in Q as ([m' w'] & E' & I1). cbn in E'. subst m'. destruct c as [e t]. exact (Nc m w' e t I1 (or_introl eq_refl) Cv). }
               apply nodup_snoc; assumption.
            -- intros m' w' i ti I1 I2. apply in_app_iff in I1 as [I1|[I1|[]]].
               ++ destruct (A2 i ti I2) as (ti' & I3). exact (Nc m' w' i ti' I1 (or_intror I3)).
               ++ injection I1 as <- _. exact (Nm i ti I2).
            -- split; [|split; assumption]. apply (eqv_trans _ _ _ B1). rewrite <- app_assoc. apply eqv_app; [apply eqv_refl|exact A1].
          * destruct (IH kept l1 D1 l' D') as (B1 & B2 & B3); [lia|exact E|exact Al1|exact Rd1|exact Tk|exact Nd| |].
            -- intros m' w' i ti I1 I2. destruct (A2 i ti I2) as (ti' & I3). exact (Nc m' w' i ti' I1 (or_intror I3)).
            -- split; [|split; assumption]. apply (eqv_trans _ _ _ B1). apply eqv_app; [apply eqv_refl|exact A1].
    Qed.
    (** * Propagation to a parent *)
    Lemma update_spec own p t own' t' : update own p t = Some (own', t') ->
      eqv ((p, t) :: own') ((p, t) :: own) /\ (forall e w, In (e, w) own' -> exists w', In (e, w') own).
    Proof.
      revert own' t'. induction own as [|[e te] own IH]; intros own' t'; cbn [update]; [discriminate|].
      destruct (Nat.eqb_spec e p) as [->|N].
      - intro E; injection E as <- _. split.
        + intro m. split.
          * split; intros (x & tx & I1 & R).
            -- destruct I1 as [E|[E|I1]]; [injection E as <- <-; exists p, t; split; [left; reflexivity|exact R]|injection E as <- _; exists p, t; split; [left; reflexivity|exact R]|exists x, tx; split; [right; right; exact I1|exact R]].
            -- destruct I1 as [E|[E|I1]]; [injection E as <- <-; exists p, t; split; [left; reflexivity|exact R]|injection E as <- _; exists p, t; split; [left; reflexivity|exact R]|exists x, tx; split; [right; right; exact I1|exact R]].
          * intro k. split; intros S1 x tx I1 R.
            -- destruct I1 as [E|[E|I1]]; [injection E as <- <-; exact (S1 p t (or_introl eq_refl) R)| |exact (S1 x tx (or_intror (or_intror I1)) R)].
               injection E as <- <-. exact (proj1 (proj1 (tand_bit te t k) (S1 p _ (or_intror (or_introl eq_refl)) R))).
            -- destruct I1 as [E|[E|I1]]; [injection E as <- <-; exact (S1 p t (or_introl eq_refl) R)| |exact (S1 x tx (or_intror (or_intror I1)) R)].
               injection E as <- <-. apply tand_bit. split; [exact (S1 p te (or_intror (or_introl eq_refl)) R)|exact (S1 p t (or_introl eq_refl) R)].
        + intros x w [E|I1]; [injection E as <- _; exists te; left; reflexivity|exists w; right; exact I1].
      - destruct (update own p t) as [[own1 t1]|]; [|discriminate]. intro E; injection E as <- <-.
        destruct (IH own1 t1 eq_refl) as [A B]. split.
        + apply (eqv_trans _ ([(e, te)] ++ ((p, t) :: own1))); [apply eqv_In; intro x; cbn [In app]; tauto|].
          apply (eqv_trans _ ([(e, te)] ++ ((p, t) :: own))); [apply eqv_app; [apply eqv_refl|exact A]|apply eqv_In; intro x; cbn [In app]; tauto].
        + intros x w [I1|I1]; [exists w; left; exact I1|]. destruct (B x w I1) as (w' & I2). exists w'. right; exact I2.
    Qed.
    (* memory from a child of the node *)
    Definition below (e : nat) : Prop := Ins e /\ forall p, parent e = Some p -> nodeOf p = r \/ nodeOf p < r.
    Lemma pull_spec cs : forall pushed own D pushed' own' D',
      fold_left (pull parent nodeOf r) cs (pushed, own, D) = (pushed', own', D') ->
      (forall e t, In (e, t) cs -> below e) -> ready pushed -> allIns pushed ->
      eqv (pushed' ++ own') (cs ++ pushed ++ own) /\ ready pushed' /\ allIns pushed' /\
      (forall e w, In (e, w) own' -> exists w', In (e, w') own).
    Proof.
      induction cs as [|[e t] cs IH]; intros pushed own D pushed' own' D' E Bl Rd Al; cbn [fold_left] in E.
      - injection E as <- <- _. split; [apply eqv_refl|]. split; [exact Rd|]. split; [exact Al|]. intros e w I1; exists w; exact I1.
      - destruct (Bl e t (or_introl eq_refl)) as [Ie Pe].
        assert (Bl' : forall e t, In (e, t) cs -> below e) by (intros x tx I1; apply (Bl x tx); right; exact I1).
        cbn [pull] in E. destruct (parent e) as [p|] eqn:Ep.
        + destruct (Nat.eqb_spec (nodeOf p) r) as [Np|Np].
          * assert (Rd' : ready ((p, t) :: pushed)). { intros x tx [Q|I1]; [injection Q as <- _; left; exact Np|exact (Rd x tx I1)]. }
            assert (Al' : allIns ((p, t) :: pushed)). { intros x tx [Q|I1]; [injection Q as <- _; apply InsRoot; exact Np|exact (Al x tx I1)]. }
            assert (Mv : eqv [(p, t)] [(e, t)]).
            { apply eqv_move. intro m. symmetry. apply (rep_via r e p m); [exact (CPart parent p e p Ep (CSelf parent p))|lia]. }
            destruct (update own p t) as [[own1 t1]|] eqn:U.
            -- destruct (update_spec own p t own1 t1 U) as [U1 U2].
               destruct (IH _ own1 _ pushed' own' D' E Bl' Rd' Al') as (A1 & A2 & A3 & A4). split; [|split; [exact A2|split; [exact A3|]]].
               ++ apply (eqv_trans _ _ _ A1). apply (eqv_trans _ (cs ++ pushed ++ ((p, t) :: own1))).
                  { apply eqv_In. intro x. rewrite ?in_app_iff. cbn [In]. rewrite ?in_app_iff. tauto. }
                  apply (eqv_trans _ (cs ++ pushed ++ ((p, t) :: own))); [apply eqv_app; [apply eqv_refl|apply eqv_app; [apply eqv_refl|exact U1]]|].
                  apply (eqv_trans _ ([(p, t)] ++ (cs ++ pushed ++ own))); [apply eqv_In; intro x; rewrite ?in_app_iff; cbn [In]; tauto|].
                  change (eqv ([(p, t)] ++ (cs ++ pushed ++ own)) ([(e, t)] ++ (cs ++ pushed ++ own))). apply eqv_app; [exact Mv|apply eqv_refl].
               ++ intros x w I1. destruct (A4 x w I1) as (w' & I2). exact (U2 x w' I2).
            -- destruct (IH _ own _ pushed' own' D' E Bl' Rd' Al') as (A1 & A2 & A3 & A4). split; [|split; [exact A2|split; [exact A3|exact A4]]].
               apply (eqv_trans _ _ _ A1).
               apply (eqv_trans _ ([(p, t)] ++ (cs ++ pushed ++ own))); [apply eqv_In; intro x; rewrite ?in_app_iff; cbn [In]; rewrite ?in_app_iff; tauto|].
               change (eqv ([(p, t)] ++ (cs ++ pushed ++ own)) ([(e, t)] ++ (cs ++ pushed ++ own))). apply eqv_app; [exact Mv|apply eqv_refl].
          * assert (Te : top e). { split; [exact Ie|]. intros p' E'. rewrite Ep in E'. injection E' as <-. destruct (Pe p eq_refl); [contradiction|assumption]. }
            destruct (IH ((e, t) :: pushed) own D pushed' own' D' E Bl') as (A1 & A2 & A3 & A4).
            { intros x tx [Q|I1]; [injection Q as <- _; right; exact Te|exact (Rd x tx I1)]. }
            { intros x tx [Q|I1]; [injection Q as <- _; exact Ie|exact (Al x tx I1)]. }
            split; [|split; [exact A2|split; [exact A3|exact A4]]]. apply (eqv_trans _ _ _ A1). apply eqv_In. intro x. cbn [app In]. rewrite ?in_app_iff. cbn [app In]. rewrite ?in_app_iff. tauto.
        + assert (Te : top e). { split; [exact Ie|]. intros p' E'. congruence. }
          destruct (IH ((e, t) :: pushed) own D pushed' own' D' E Bl') as (A1 & A2 & A3 & A4).
          { intros x tx [Q|I1]; [injection Q as <- _; right; exact Te|exact (Rd x tx I1)]. }
          { intros x tx [Q|I1]; [injection Q as <- _; exact Ie|exact (Al x tx I1)]. }
          split; [|split; [exact A2|split; [exact A3|exact A4]]]. apply (eqv_trans _ _ _ A1). apply eqv_In. intro x. cbn [app In]. rewrite ?in_app_iff. cbn [app In]. rewrite ?in_app_iff. tauto.
    Qed.
  End Root.
  (* from a nested node to an enclosing one *)
  Lemma eqv_up r' r l l' : r <= r' -> (forall e t, In (e, t) l -> r' <= nodeOf e) -> (forall e t, In (e, t) l' -> r' <= nodeOf e) ->
    eqv r' l l' -> eqv r l l'.
  Proof.
    intros Le A A' H.
    assert (Via : forall e m', rep r' e m' -> forall m, rep r e m <-> rep r m' m).
    { intros e m' (C & B & _) m. apply rep_via; [exact C|lia]. }
    assert (Occ : forall l l', (forall e t, In (e, t) l -> r' <= nodeOf e) -> (forall m, occ r' l m -> occ r' l' m) -> forall m, occ r l m -> occ r l' m).
    { intros k k' Ak Hk m (e & t & I1 & R). destruct (rep_exists r' e (Ak e t I1)) as (m' & R').
      destruct (Hk m' (ex_intro _ e (ex_intro _ t (conj I1 R')))) as (e2 & t2 & I2 & R2). exists e2, t2. split; [exact I2|].
      apply (Via e2 m' R2). apply (Via e m' R'). exact R. }
    assert (Sat : forall l l' k, (forall e t, In (e, t) l' -> r' <= nodeOf e) -> (forall m, sat r' l m k -> sat r' l' m k) -> forall m, sat r l m k -> sat r l' m k).
    { intros k k' b Ak Hk m S1 e2 t2 I2 R. destruct (rep_exists r' e2 (Ak e2 t2 I2)) as (m' & R').
      apply (Hk m') with (e := e2); [|exact I2|exact R']. intros e t I1 R1. apply (S1 e t I1). apply (Via e m' R1). apply (Via e2 m' R'). exact R. }
    intro m. split.
    - split; [apply (Occ l l' A)|apply (Occ l' l A')]; intros m'; apply H.
    - intro k. split; [apply (Sat l l' k A')|apply (Sat l' l k A)]; intros m'; apply H.
  Qed.
End Rep.

(** * Trees *)
Fixpoint anode_rect' (P : anode -> Prop) (H : forall n own cs, Forall P cs -> P (ANode n own cs)) (a : anode) : P a :=
  match a with
  | ANode n own cs => H n own cs ((fix all (cs : list anode) : Forall P cs :=
      match cs with [] => Forall_nil P | c :: cs => Forall_cons c (anode_rect' P H c) (all cs) end) cs)
  end.
Fixpoint accs (a : anode) : list item := match a with ANode _ own cs => own ++ flat_map accs cs end.
Lemma accs_spec a e t : In (e, t) (accs a) <-> access a e t.
Proof.
  induction a as [n own cs IH] using anode_rect'. rewrite Forall_forall in IH. cbn [accs]. rewrite in_app_iff, in_flat_map. split.
  - intros [I1|(c & Ic & I1)].
    + exists (ANode n own cs). split; [constructor|exact I1].
    + apply (IH c Ic) in I1 as (b & Nb & I1). exists b. split; [exact (NChild n own cs c b Ic Nb)|exact I1].
  - intros (b & Nb & I1). inversion Nb as [x|n' own' cs' c x Ic Nc]; subst; [left; exact I1|].
    right. exists c. split; [exact Ic|]. apply (IH c Ic). exists b. auto.
Qed.
Lemma nested_trans a b c : nested a b -> nested b c -> nested a c.
Proof. intros H. induction H as [a|n own cs x a Ix _ IH]; [auto|]. intro H'. exact (NChild n own cs x c Ix (IH H')). Qed.
Section Tree.
  Variable parent : nat -> option nat.
  Variable nodeOf : nat -> nat.
  Variable nodeParent : nat -> option nat.
  Notation ok := (treeOk parent nodeOf nodeParent).
  Lemma ok_nested a b : ok a -> nested a b -> ok b.
  Proof.
    intros [A1 A2 A3 A4 A5] N. constructor; [exact A1|exact A2| |exact A4|].
    - intros b' c N'. apply A3. exact (nested_trans a b b' N N').
    - intros b' e t N'. apply A5. exact (nested_trans a b b' N N').
  Qed.
  Lemma ok_mono a : ok a -> forall e p, parent e = Some p -> nodeOf p <= nodeOf e.
  Proof. intros [A1 A2 A3 A4 A5] e p E. exact (covers_le nodeParent A2 _ _ (A4 e p E)). Qed.
  Lemma up_outside a b x : ok a -> nested a b -> covers nodeParent x (idOf b) ->
    (exists b', nested a b' /\ idOf b' = x) \/ (x < idOf a /\ covers nodeParent x (idOf a)).
  Proof.
    intros Ok N. induction N as [a|n own cs c b Ic N IH]; intro C.
    - destruct (Nat.eq_dec x (idOf a)) as [->|Nx]; [left; exists a; split; [constructor|reflexivity]|].
      right. split; [|exact C]. pose proof (covers_le nodeParent (okNodes _ _ _ _ Ok) _ _ C). lia.
    - assert (Nc : nested (ANode n own cs) c) by (apply (NChild n own cs c c Ic); constructor).
      destruct (IH (ok_nested _ c Ok Nc) C) as [(b' & Nb & Eb)|[L C']].
      + left. exists b'. split; [exact (NChild n own cs c b' Ic Nb)|exact Eb].
      + assert (Ep : nodeParent (idOf c) = Some n) by (exact (okChild _ _ _ _ Ok (ANode n own cs) c (NSelf _) Ic)).
        assert (Nx : x <> idOf c) by lia. destruct (covers_top nodeParent x (idOf c) C' Nx) as (p & Ep' & C''). rewrite Ep in Ep'. injection Ep' as <-.
        destruct (Nat.eq_dec x n) as [->|Nn]; [left; exists (ANode n own cs); split; [constructor|reflexivity]|].
        right. cbn [idOf]. split; [|exact C'']. pose proof (covers_le nodeParent (okNodes _ _ _ _ Ok) _ _ C''). lia.
  Qed.
  Lemma root_le a b : ok a -> nested a b -> idOf a <= idOf b.
  Proof.
    intros Ok N. induction N as [a|n own cs c b Ic N IH]; [lia|].
    assert (Nc : nested (ANode n own cs) c) by (apply (NChild n own cs c c Ic); constructor).
    pose proof (okNodes _ _ _ _ Ok _ _ (okChild _ _ _ _ Ok (ANode n own cs) c (NSelf _) Ic)) as L. specialize (IH (ok_nested _ c Ok Nc)). cbn [idOf] in *. lia.
  Qed.
  Lemma inside_le a e : ok a -> inside nodeOf a e -> idOf a <= nodeOf e.
  Proof. intros Ok (b & N & ->). exact (root_le a b Ok N). Qed.
  Lemma inside_root a e : nodeOf e = idOf a -> inside nodeOf a e.
  Proof. intro E. exists a. split; [constructor|exact E]. Qed.
  Lemma covers_nodes a m e : ok a -> covers parent m e -> covers nodeParent (nodeOf m) (nodeOf e).
  Proof. intros Ok. induction 1 as [|e p E _ IH]; [constructor|]. exact (covers_trans nodeParent _ _ _ IH (okCovers _ _ _ _ Ok e p E)). Qed.
  Definition goodList (a : anode) (l : list item) : Prop :=
    eqv parent nodeOf (idOf a) l (accs a) /\ (forall m w, In (m, w) l -> top parent nodeOf (idOf a) (inside nodeOf a) m) /\ NoDup (map fst l).
  Definition propAll := fix all (cs : list anode) (D : deps) : list (list item) * deps * results :=
    match cs with
    | [] => ([], D, [])
    | c :: cs =>
        match propagate parent nodeOf c D with
        | (l, D1, r1) => match all cs D1 with (ls, D2, r2) => (l :: ls, D2, r1 ++ r2) end
        end
    end.
  Definition goodResults (a : anode) (rs : results) : Prop :=
    (forall b, nested a b -> exists l D', In (idOf b, l, D') rs) /\
    (forall n l D', In (n, l, D') rs -> exists b, nested a b /\ idOf b = n /\ goodList b l).
  Definition good (a : anode) : Prop := ok a -> forall D l D' rs, propagate parent nodeOf a D = (l, D', rs) -> goodList a l /\ goodResults a rs.
  Lemma all_good cs : Forall good cs -> (forall c, In c cs -> ok c) -> forall D ls D' rs, propAll cs D = (ls, D', rs) ->
    Forall2 goodList cs ls /\
    (forall c b, In c cs -> nested c b -> exists l D', In (idOf b, l, D') rs) /\
    (forall n l D', In (n, l, D') rs -> exists c b, In c cs /\ nested c b /\ idOf b = n /\ goodList b l).
  Proof.
    induction 1 as [|c cs Gc _ IH]; intros Ok D ls D' rs E; cbn [propAll] in E.
    - injection E as <- _ <-. split; [constructor|]. split; [intros c b []|intros n l D1 []].
    - destruct (propagate parent nodeOf c D) as [[l D1] r1] eqn:P. fold propAll in E.
      destruct (propAll cs D1) as [[ls2 D2] r2] eqn:A. injection E as <- _ <-.
      destruct (Gc (Ok c (or_introl eq_refl)) D l D1 r1 P) as [G1 [G2 G3]].
      destruct (IH (fun x Ix => Ok x (or_intror Ix)) D1 ls2 D2 r2 A) as (B1 & B2 & B3). split; [constructor; assumption|]. split.
      + intros x b [<-|Ix] N.
        * destruct (G2 b N) as (l0 & D0 & I1). exists l0, D0. apply in_app_iff. left; exact I1.
        * destruct (B2 x b Ix N) as (l0 & D0 & I1). exists l0, D0. apply in_app_iff. right; exact I1.
      + intros n l0 D0 I1. apply in_app_iff in I1 as [I1|I1].
        * destruct (G3 n l0 D0 I1) as (b & N & Eb & Gb). exists c, b. split; [left; reflexivity|]. auto.
        * destruct (B3 n l0 D0 I1) as (x & b & Ix & Q). exists x, b. split; [right; exact Ix|exact Q].
  Qed.
  Lemma tree_good a : good a.
  Proof.
    induction a as [n own cs IH] using anode_rect'. intros Ok D l D' rs E.
    assert (Okc : forall c, In c cs -> ok c).
    { intros c Ic. apply (ok_nested (ANode n own cs) c Ok). apply (NChild n own cs c c Ic). constructor. }
    cbn [propagate] in E. fold propAll in E. destruct (propAll cs D) as [[ls D1] rc] eqn:A.
    destruct (all_good cs IH Okc D ls D1 rc A) as (B1 & B2 & B3).
    destruct (fold_left (pull parent nodeOf n) (concat (rev ls)) ([], own, D1)) as [[pushed own'] D2] eqn:P.
    destruct (reduce parent nodeOf (length (pushed ++ own')) n [] (pushed ++ own') D2) as [l' D3] eqn:R. injection E as <- _ <-.
    pose proof (okMemory _ _ _ _ Ok) as Dec. pose proof (ok_mono _ Ok) as Mono.
    set (a := ANode n own cs) in *.
    assert (InsR : forall e, inside nodeOf a e -> n <= nodeOf e) by (intros e; exact (inside_le a e Ok)).
    assert (InsRoot : forall e, nodeOf e = n -> inside nodeOf a e) by (intros e; exact (inside_root a e)).
    assert (Items : forall l0, In l0 ls -> exists c, In c cs /\ goodList c l0).
    { clear -B1. induction B1 as [|c l0 cs ls G _ IHB]; intros l1 I1; [destruct I1|]. destruct I1 as [<-|I1]; [exists c; split; [left; reflexivity|exact G]|].
      destruct (IHB l1 I1) as (c' & Ic & G'). exists c'. split; [right; exact Ic|exact G']. }
    assert (Lt : forall c, In c cs -> n < idOf c).
    { intros c Ic. exact (okNodes _ _ _ _ Ok _ _ (okChild _ _ _ _ Ok a c (NSelf _) Ic)). }
    assert (Bl : forall e t, In (e, t) (concat (rev ls)) -> below parent nodeOf n (inside nodeOf a) e).
    { intros e t I1. apply in_concat in I1 as (l0 & Il & I1). apply in_rev in Il. destruct (Items l0 Il) as (c & Ic & (_ & Tc & _)).
      destruct (Tc e t I1) as [(b & Nb & Eb) Tp]. split; [exists b; split; [exact (NChild n own cs c b Ic Nb)|exact Eb]|].
      intros p Ep. specialize (Tp p Ep). pose proof (okCovers _ _ _ _ Ok e p Ep) as C. rewrite Eb in C.
      destruct (up_outside c b (nodeOf p) (Okc c Ic) Nb C) as [(b' & Nb' & Eb')|[_ C']].
      - pose proof (root_le c b' (Okc c Ic) Nb'). lia.
      - assert (Nx : nodeOf p <> idOf c) by lia. destruct (covers_top nodeParent _ _ C' Nx) as (q & Eq & C'').
        pose proof (okChild _ _ _ _ Ok a c (NSelf _) Ic) as Eq'. rewrite Eq in Eq'. injection Eq' as ->. cbn [idOf] in C''.
        pose proof (covers_le nodeParent (okNodes _ _ _ _ Ok) _ _ C''). unfold a in H. cbn [idOf] in H. lia. }
    destruct (pull_spec parent nodeOf Mono n (inside nodeOf a) InsRoot (concat (rev ls)) [] own D1 pushed own' D2 P Bl) as (Q1 & Q2 & Q3 & Q4).
    { intros e t []. }
    { intros e t []. }
    assert (Own : forall e t, In (e, t) own' -> nodeOf e = n).
    { intros e t I1. destruct (Q4 e t I1) as (t' & I2). exact (okOwn _ _ _ _ Ok a e t' (NSelf _) I2). }
    destruct (reduce_spec parent nodeOf Dec Mono n (inside nodeOf a) InsR InsRoot _ [] (pushed ++ own') D2 l' D3 (le_n _) R) as (R1 & R2 & R3).
    { intros e t I1. apply in_app_iff in I1 as [I1|I1]; [exact (Q3 e t I1)|]. exact (InsRoot e (Own e t I1)). }
    { intros e t I1. apply in_app_iff in I1 as [I1|I1]; [exact (Q2 e t I1)|]. left. exact (Own e t I1). }
    { intros m w []. }
    { constructor. }
    { intros m w i ti []. }
    assert (Ch : eqv parent nodeOf n (concat (rev ls)) (flat_map accs cs)).
    { apply (eqv_trans _ _ _ _ (concat ls)).
      - apply eqv_In. intro x. rewrite !in_concat. split; intros (l0 & I1 & I2); exists l0; (split; [|exact I2]); apply in_rev; [exact I1|rewrite rev_involutive; exact I1].
      - clear -B1 Lt Okc Dec Mono. induction B1 as [|c l0 cs ls G _ IHB]; [apply eqv_refl|]. cbn [concat flat_map].
        apply eqv_app; [|apply IHB; intros x Ix; [apply Okc; right; exact Ix|apply Lt; right; exact Ix]].
        destruct G as (G1 & G2 & _). pose proof (Okc c (or_introl eq_refl)) as Oc.
        apply (eqv_up parent nodeOf Dec Mono (idOf c) n); [specialize (Lt c (or_introl eq_refl)); lia| | |exact G1].
        + intros e t I1. destruct (G2 e t I1) as [Ie _]. exact (inside_le c e Oc Ie).
        + intros e t I1. apply accs_spec in I1 as (b & Nb & I1). rewrite (okOwn _ _ _ _ Oc b e t Nb I1). exact (root_le c b Oc Nb). }
    assert (G : goodList a l').
    { split; [|split; [exact R2|exact R3]]. apply (eqv_trans _ _ _ _ _ _ R1). cbn [app]. apply (eqv_trans _ _ _ _ _ _ Q1).
      unfold a. cbn [accs idOf app]. apply (eqv_trans _ _ _ _ (own ++ concat (rev ls))); [apply eqv_swap|]. apply eqv_app; [apply eqv_refl|exact Ch]. }
    split; [exact G|]. split.
    - intros b N. inversion N as [x|n' own0 cs' c x Ic Nc]; subst.
      + exists l', D3. apply in_app_iff. right; left; reflexivity.
      + destruct (B2 c b Ic Nc) as (l0 & D0 & I1). exists l0, D0. apply in_app_iff. left; exact I1.
    - intros k l0 D0 I1. apply in_app_iff in I1 as [I1|[I1|[]]].
      + destruct (B3 k l0 D0 I1) as (c & b & Ic & Nb & Eb & Gb). exists b. split; [exact (NChild n own cs c b Ic Nb)|]. auto.
      + injection I1 as <- <- _. exists a. split; [constructor|]. split; [reflexivity|exact G].
  Qed.
End Tree.
Lemma single (l : list item) m w w' : NoDup (map fst l) -> In (m, w) l -> In (m, w') l -> w = w'.
Proof.
  induction l as [|[x t] l IH]; intros N I1 I2; [destruct I1|]. cbn in N. inversion N as [|? ? Nx N']; subst.
  destruct I1 as [E1|I1], I2 as [E2|I2]; [congruence| | |exact (IH N' I1 I2)].
  - injection E1 as -> ->. destruct Nx. apply in_map_iff. exists (m, w'). auto.
  - injection E2 as -> ->. destruct Nx. apply in_map_iff. exists (m, w). auto.
Qed.
Lemma traits_true : C88_traits_claim.
Proof.
  intros parent nodeOf nodeParent a D Ok. destruct (propagate parent nodeOf a D) as [[l0 D0] rs] eqn:P.
  destruct (tree_good parent nodeOf nodeParent a Ok D l0 D0 rs P) as [_ [S1 S2]]. split.
  - intros b N. unfold stored. rewrite P. exact (S1 b N).
  - intros n l D' I1. cbn [snd] in I1. destruct (S2 n l D' I1) as (b & N & Eb & (G1 & G2 & G3)).
    exists b. split; [exact N|]. split; [exact Eb|].
    pose proof (ok_nested _ _ _ a b Ok N) as Okb. pose proof (okMemory _ _ _ _ Ok) as Dec. pose proof (ok_mono _ _ _ _ Ok) as Mono.
    assert (InsR : forall e, inside nodeOf b e -> idOf b <= nodeOf e) by (intros e; exact (inside_le _ _ _ b e Okb)).
    assert (AccIn : forall e t, access b e t -> idOf b <= nodeOf e).
    { intros e t (b' & Nb & Ie). apply InsR. exists b'. split; [exact Nb|]. exact (okOwn _ _ _ _ Okb b' e t Nb Ie). }
    assert (Top : forall m w, In (m, w) l -> rep parent nodeOf (idOf b) m m) by (intros m w Im; exact (top_rep parent nodeOf _ _ InsR m (G2 m w Im))).
    split; [|split; [|split; [exact G3|]]].
    + intros e t Ac. destruct (rep_exists parent nodeOf Dec Mono (idOf b) e (AccIn e t Ac)) as (m & R).
      assert (O : occ parent nodeOf (idOf b) (accs b) m) by (exists e, t; split; [apply accs_spec; exact Ac|exact R]).
      apply G1 in O as (m1 & w & Im & R1). assert (Em : m1 = m) by (exact (rep_unique parent nodeOf Mono _ m1 m1 m (Top m1 w Im) R1)).
      subst m1. exists m, w. split; [exact Im|exact (proj1 R)].
    + intros m w Im. destruct (G2 m w Im) as [Ii Tp]. split; [exact Ii|]. split; [|split].
      * intros p Ep Ip. specialize (Tp p Ep). specialize (InsR p Ip). lia.
      * assert (O : occ parent nodeOf (idOf b) l m) by (exists m, w; split; [exact Im|exact (Top m w Im)]).
        apply G1 in O as (e & t & Ie & R). exists e, t. split; [apply accs_spec; exact Ie|exact (proj1 R)].
      * intro k. destruct (G1 m) as [_ Sk]. specialize (Sk k). split.
        -- intros Wk e t Ac C. assert (Sl : sat parent nodeOf (idOf b) l m k).
           { intros m1 w1 Im1 R1. assert (Em : m1 = m) by (exact (rep_unique parent nodeOf Mono _ m1 m1 m (Top m1 w1 Im1) R1)).
             subst m1. rewrite <- (single l m w w1 G3 Im Im1). exact Wk. }
           apply Sk in Sl. apply (Sl e t); [apply accs_spec; exact Ac|]. apply (rep_covers parent nodeOf (idOf b) m e (Top m w Im) (AccIn e t Ac)). exact C.
        -- intro H. apply (proj2 Sk) with (e := m); [|exact Im|exact (Top m w Im)]. intros e t Ie R. apply (H e t); [apply accs_spec; exact Ie|exact (proj1 R)].
    + intros m w m' w' Im Im' C. destruct (G2 m w Im) as [Ii _]. exact (top_covers parent nodeOf Mono _ _ InsR m' m (G2 m' w' Im') Ii C).
Qed.

(** * Dependences *)
Definition le (D D' : deps) : Prop := forall x, D x = true -> D' x = true.
Lemma le_refl D : le D D.
Proof. intros x H; exact H. Qed.
Lemma le_trans D1 D2 D3 : le D1 D2 -> le D2 D3 -> le D1 D3.
Proof. intros A B x H. exact (B x (A x H)). Qed.
Lemma merge_le to t from D : le D (mergeDep to t from D).
Proof. intros x H. unfold mergeDep. destruct (D from || isDep t); [rewrite H; apply orb_true_r|exact H]. Qed.
Lemma merge_dep to t from D : isDep t = true -> mergeDep to t from D to = true.
Proof. intros H. unfold mergeDep. rewrite H, orb_true_r, Nat.eqb_refl. reflexivity. Qed.
Lemma merge_from to t from D : D from = true -> mergeDep to t from D to = true.
Proof. intros H. unfold mergeDep. rewrite H. cbn [orb]. rewrite Nat.eqb_refl. reflexivity. Qed.
Definition strong (l : list item) (D : deps) : Prop := forall e t, In (e, t) l -> isDep t = true -> D e = true.
Lemma strong_le l D D' : le D D' -> strong l D -> strong l D'.
Proof. intros L G e t I1 H. exact (L e (G e t I1 H)). Qed.
Definition cnt (l : list item) (e : nat) : nat := count_occ Nat.eq_dec (map fst l) e.
Lemma cnt_cons i ti l e : cnt ((i, ti) :: l) e = (if Nat.eq_dec i e then 1 else 0) + cnt l e.
Proof. unfold cnt. cbn [map fst count_occ]. destruct (Nat.eq_dec i e); reflexivity. Qed.
Lemma cnt_app l l' e : cnt (l ++ l') e = cnt l e + cnt l' e.
Proof. unfold cnt. rewrite map_app. apply count_occ_app. Qed.
Lemma cnt_rev l e : cnt (rev l) e = cnt l e.
Proof. induction l as [|[i ti] l IH]; [reflexivity|]. cbn [rev]. rewrite cnt_app, IH, !cnt_cons. change (cnt [] e) with 0. lia. Qed.
Lemma cnt_In l e t : In (e, t) l -> 1 <= cnt l e.
Proof. intro I1. unfold cnt. apply count_occ_In. apply in_map_iff. exists (e, t). auto. Qed.
Section Deps.
  Variable parent : nat -> option nat.
  Variable nodeOf : nat -> nat.
  Section Node.
    Variable n : nat.
    Definition weak (l : list item) (D : deps) : Prop := forall e t, In (e, t) l -> nodeOf e = n \/ (isDep t = true -> D e = true).
    Definition once (l : list item) : Prop := forall e, nodeOf e <> n -> cnt l e <= 1.
    Lemma weak_le l D D' : le D D' -> weak l D -> weak l D'.
    Proof. intros L G e t I1. destruct (G e t I1) as [Q|Q]; [left; exact Q|right; intro H; exact (L e (Q H))]. Qed.
    Lemma weak_sub l l' D : (forall x, In x l' -> In x l) -> weak l D -> weak l' D.
    Proof. intros H G e t I1. exact (G e t (H _ I1)). Qed.
    Lemma weak_cons e t l D : nodeOf e = n \/ (isDep t = true -> D e = true) -> weak l D -> weak ((e, t) :: l) D.
    Proof. intros E G x tx [Q|I1]; [injection Q as <- <-; exact E|exact (G x tx I1)]. Qed.
    Lemma scan_deps rest : forall c t seen D o l' D', scan parent c t seen rest D = (o, l', D') ->
      (isDep t = true -> D c = true) -> weak (seen ++ rest) D -> (nodeOf c <> n -> cnt (seen ++ rest) c = 0) ->
      (match o with Some (m, w) => isDep w = true -> D' m = true | None => True end) /\ weak l' D' /\ le D D' /\
      (forall e, cnt l' e <= cnt (seen ++ rest) e) /\ length l' <= length seen + length rest.
    Proof.
      induction rest as [|[i ti] rest IH]; intros c t seen D o l' D' E Hc G U; cbn [scan] in E.
      - injection E as <- <- <-. rewrite app_nil_r in *. split; [exact Hc|]. split; [|split; [apply le_refl|split; [|rewrite rev_length; cbn; lia]]].
        + apply (weak_sub seen); [|exact G]. intros x. rewrite <- in_rev. auto.
        + intro e. rewrite cnt_rev. lia.
      - assert (Gr : weak (seen ++ rest) D).
        { apply (weak_sub (seen ++ (i, ti) :: rest)); [|exact G]. intros x. rewrite !in_app_iff. cbn [In]. tauto. }
        assert (Dropped : forall D1, le D D1 -> nodeOf i = n \/ (isDep (tAnd ti t) = true -> D1 i = true) ->
          weak (rev seen ++ (i, tAnd ti t) :: rest) D1).
        { intros D1 L H. apply (weak_sub ((i, tAnd ti t) :: seen ++ rest)).
          - intros x. cbn [In]. rewrite !in_app_iff. cbn [In]. rewrite <- in_rev. tauto.
          - apply weak_cons; [exact H|exact (weak_le _ D D1 L Gr)]. }
        assert (Cn : forall e, cnt (rev seen ++ (i, tAnd ti t) :: rest) e <= cnt (seen ++ (i, ti) :: rest) e).
        { intro e. rewrite !cnt_app, cnt_rev, !cnt_cons. lia. }
        assert (Ln : length (rev seen ++ (i, tAnd ti t) :: rest) <= length seen + length ((i, ti) :: rest)) by (rewrite app_length, rev_length; apply le_n).
        destruct (Nat.eqb_spec c i) as [Eci|Nci].
        + injection E as <- <- <-. split; [exact Logic.I|]. split; [|split; [apply le_refl|split; assumption]]. apply Dropped; [apply le_refl|].
          left. destruct (Nat.eq_dec (nodeOf c) n) as [Q|Q]; [congruence|]. specialize (U Q). rewrite cnt_app, cnt_cons in U.
          destruct (Nat.eq_dec i c); [lia|congruence].
        + destruct (ancestor parent c i) as [a|].
          * destruct (Nat.eqb a i).
            -- injection E as <- <- <-. split; [exact Logic.I|]. split; [|split; [apply merge_le|split; assumption]].
               apply Dropped; [apply merge_le|]. right. intro H. apply merge_dep; exact H.
            -- destruct (IH c (tAnd t ti) seen _ o l' D' E) as (A & B & C & F & H).
               ++ intro Q. apply merge_dep; exact Q.
               ++ exact (weak_le _ D _ (merge_le _ _ _ _) Gr).
               ++ intro Q. specialize (U Q). rewrite cnt_app, cnt_cons in U. rewrite cnt_app. lia.
               ++ split; [exact A|]. split; [exact B|]. split; [exact (le_trans _ _ _ (merge_le _ _ _ _) C)|]. split; [|cbn [length]; lia].
                  intro e. specialize (F e). rewrite cnt_app in F |- *. rewrite cnt_cons. lia.
          * destruct (IH c t ((i, ti) :: seen) D o l' D' E Hc) as (A & B & C & F & H).
            -- apply (weak_sub (seen ++ (i, ti) :: rest)); [|exact G]. intros x. cbn [In app]. rewrite !in_app_iff. cbn [In]. tauto.
            -- intro Q. specialize (U Q). cbn [app]. rewrite cnt_cons. rewrite cnt_app in U |- *. rewrite cnt_cons in U. lia.
            -- split; [exact A|]. split; [exact B|]. split; [exact C|]. split; [|cbn [length] in H |- *; lia].
               intro e. specialize (F e). cbn [app] in F. rewrite cnt_cons in F. rewrite cnt_app in F |- *. rewrite cnt_cons. lia.
    Qed.
    Lemma redundant_deps c rest D o l' D' : removeRedundant parent nodeOf n c rest D = (o, l', D') ->
      weak (c :: rest) D -> once (c :: rest) -> (forall e, nodeOf e = n -> nodeOf (climb parent nodeOf e n e) = n) ->
      (match o with Some (m, w) => isDep w = true -> D' m = true | None => True end) /\ weak l' D' /\ le D D' /\
      once l' /\ length l' <= length rest.
    Proof.
      destruct c as [e t]. cbn [removeRedundant]. intros E G U Cl.
      assert (Gr : weak rest D) by (apply (weak_sub ((e, t) :: rest)); [intros x I1; right; exact I1|exact G]).
      assert (Fin : forall D1, le D D1 -> (match o with Some (m, w) => isDep w = true -> D' m = true | None => True end) /\ weak l' D' /\ le D1 D' /\
         (forall e, cnt l' e <= cnt rest e) /\ length l' <= length rest -> 
         (match o with Some (m, w) => isDep w = true -> D' m = true | None => True end) /\ weak l' D' /\ le D D' /\ once l' /\ length l' <= length rest).
      { intros D1 L (A & B & C & F & H). split; [exact A|]. split; [exact B|]. split; [exact (le_trans _ _ _ L C)|]. split; [|exact H].
        intros x Nx. specialize (U x Nx). rewrite cnt_cons in U. specialize (F x). lia. }
      destruct (Nat.eqb_spec (nodeOf e) n) as [Ne|Ne].
      - apply (Fin _ (merge_le (climb parent nodeOf e n e) t e D)). apply (scan_deps rest _ t [] _ o l' D' E).
        + intro H. apply merge_dep; exact H.
        + exact (weak_le _ D _ (merge_le _ _ _ _) Gr).
        + intro Q. destruct (Q (Cl e Ne)).
      - apply (Fin D (le_refl D)). apply (scan_deps rest e t [] D o l' D' E).
        + destruct (G e t (or_introl eq_refl)) as [Q|Q]; [contradiction|exact Q].
        + exact Gr.
        + intros _. cbn [app]. specialize (U e Ne). rewrite cnt_cons in U. destruct (Nat.eq_dec e e); [lia|congruence].
    Qed.
    Lemma reduce_deps fuel : (forall e, nodeOf e = n -> nodeOf (climb parent nodeOf e n e) = n) ->
      forall kept l D l' D', reduce parent nodeOf fuel n kept l D = (l', D') ->
      length l <= fuel -> strong kept D -> weak l D -> once l -> strong l' D' /\ le D D'.
    Proof.
      intro Cl. induction fuel as [|fuel IH]; intros kept l D l' D' E L Sk G U; cbn [reduce] in E.
      - destruct l; [|cbn in L; lia]. injection E as <- <-. split; [exact Sk|apply le_refl].
      - destruct l as [|c rest].
        + injection E as <- <-. split; [exact Sk|apply le_refl].
        + destruct (removeRedundant parent nodeOf n c rest D) as [[o l1] D1] eqn:R. cbn [length] in L.
          destruct (redundant_deps c rest D o l1 D1 R G U Cl) as (A & B & C & F & H).
          destruct o as [[m w]|].
          * destruct (IH (kept ++ [(m, w)]) l1 D1 l' D' E) as [A' B']; [lia| |exact B|exact F|split; [exact A'|exact (le_trans _ _ _ C B')]].
            intros e t I1 Hd. apply in_app_iff in I1 as [I1|[I1|[]]]; [exact (C e (Sk e t I1 Hd))|]. injection I1 as <- <-. exact (A Hd).
          * destruct (IH kept l1 D1 l' D' E) as [A' B']; [lia|exact (strong_le _ _ _ C Sk)|exact B|exact F|split; [exact A'|exact (le_trans _ _ _ C B')]].
    Qed.
    Lemma pull_deps cs : forall pushed own D pushed' own' D',
      fold_left (pull parent nodeOf n) cs (pushed, own, D) = (pushed', own', D') ->
      strong cs D -> weak pushed D -> weak pushed' D' /\ le D D' /\
      (forall e, nodeOf e <> n -> cnt pushed' e <= cnt cs e + cnt pushed e) /\ map fst own' = map fst own.
    Proof.
      induction cs as [|[e t] cs IH]; intros pushed own D pushed' own' D' E Gc Gp; cbn [fold_left] in E.
      - injection E as <- <- <-. split; [exact Gp|]. split; [apply le_refl|]. split; [|reflexivity]. intros e _. cbn. lia.
      - pose proof (Gc e t (or_introl eq_refl)) as De.
        assert (Gc' : strong cs D) by (intros x tx I1; apply (Gc x tx); right; exact I1).
        assert (Keep : fold_left (pull parent nodeOf n) cs ((e, t) :: pushed, own, D) = (pushed', own', D') ->
          weak pushed' D' /\ le D D' /\ (forall x, nodeOf x <> n -> cnt pushed' x <= cnt ((e, t) :: cs) x + cnt pushed x) /\ map fst own' = map fst own).
        { intro Q. destruct (IH _ own D pushed' own' D' Q Gc') as (A & B & C & F); [apply weak_cons; [right; exact De|exact Gp]|].
          split; [exact A|]. split; [exact B|]. split; [|exact F]. intros x Nx. specialize (C x Nx). rewrite cnt_cons in C |- *. lia. }
        cbn [pull] in E. destruct (parent e) as [p|]; [|exact (Keep E)]. destruct (Nat.eqb_spec (nodeOf p) n) as [Np|_]; [|exact (Keep E)].
        assert (Step : forall own1 t1, map fst own1 = map fst own ->
          fold_left (pull parent nodeOf n) cs ((p, t) :: pushed, own1, mergeDep p t1 e D) = (pushed', own', D') ->
          weak pushed' D' /\ le D D' /\ (forall x, nodeOf x <> n -> cnt pushed' x <= cnt ((e, t) :: cs) x + cnt pushed x) /\ map fst own' = map fst own).
        { intros own1 t1 Eo Q. destruct (IH _ own1 _ pushed' own' D' Q) as (A & B & C & F).
          - exact (strong_le _ D _ (merge_le _ _ _ _) Gc').
          - apply weak_cons; [left; exact Np|exact (weak_le _ D _ (merge_le _ _ _ _) Gp)].
          - split; [exact A|]. split; [exact (le_trans _ _ _ (merge_le _ _ _ _) B)|]. split; [|congruence].
            intros x Nx. specialize (C x Nx). rewrite cnt_cons in C |- *. destruct (Nat.eq_dec p x); [congruence|]. lia. }
        destruct (update own p t) as [[own1 t1]|] eqn:Up; [|exact (Step own t eq_refl E)]. apply (Step own1 t1); [|exact E].
        clear -Up. revert own1 t1 Up. induction own as [|[x tx] own IHo]; intros own1 t1 Up; cbn [update] in Up; [discriminate Up|].
        destruct (Nat.eqb x p); [injection Up as <- _; reflexivity|]. destruct (update own p t) as [[o2 t2]|]; [|discriminate Up].
        injection Up as <- _. cbn [map fst]. f_equal. exact (IHo o2 t2 eq_refl).
    Qed.
  End Node.
End Deps.
Lemma ids_nested a b : nested a b -> In (idOf b) (ids a).
Proof.
  induction 1 as [[n own cs]|n own cs c b Ic _ IH]; [left; reflexivity|]. cbn [ids]. right. apply in_flat_map. exists c. auto.
Qed.
Lemma nodup_app_l (A : Type) (l l' : list A) : NoDup (l ++ l') -> NoDup l /\ NoDup l' /\ forall x, In x l -> ~ In x l'.
Proof.
  induction l as [|x l IH]; intro N; [split; [constructor|split; [exact N|intros y []]]|]. cbn in N. inversion N as [|? ? Nx N']; subst.
  destruct (IH N') as (A1 & A2 & A3). split; [constructor; [|exact A1]|split; [exact A2|]].
  - intro Q. apply Nx. apply in_app_iff. left; exact Q.
  - intros y [<-|Iy] Q; [apply Nx; apply in_app_iff; right; exact Q|exact (A3 y Iy Q)].
Qed.
Section DepTree.
  Variable parent : nat -> option nat.
  Variable nodeOf : nat -> nat.
  Variable nodeParent : nat -> option nat.
  Notation ok := (treeOk parent nodeOf nodeParent).
  Definition depGood (a : anode) : Prop := ok a -> NoDup (ids a) -> forall D l D' rs, propagate parent nodeOf a D = (l, D', rs) ->
    strong l D' /\ le D D' /\ forall n l0 D0, In (n, l0, D0) rs -> strong l0 D0.
  Lemma all_deps cs : Forall depGood cs -> (forall c, In c cs -> ok c) -> NoDup (flat_map ids cs) ->
    forall D ls D' rs, propAll parent nodeOf cs D = (ls, D', rs) ->
    strong (concat ls) D' /\ le D D' /\ (forall n l0 D0, In (n, l0, D0) rs -> strong l0 D0) /\
    (forall e, cnt (concat ls) e <= 1) /\ (forall e t, In (e, t) (concat ls) -> In (nodeOf e) (flat_map ids cs)).
  Proof.
    induction 1 as [|c cs Gc _ IH]; intros Ok Nd D ls D' rs E; cbn [propAll] in E.
    - injection E as <- <- <-. split; [intros e t []|]. split; [apply le_refl|]. split; [intros n l0 D0 []|]. split; [intro e; cbn; lia|intros e t []].
    - destruct (propagate parent nodeOf c D) as [[l D1] r1] eqn:P. fold (propAll parent nodeOf) in E.
      destruct (propAll parent nodeOf cs D1) as [[ls2 D2] r2] eqn:A. injection E as <- <- <-. cbn [flat_map] in Nd.
      destruct (nodup_app_l _ _ _ Nd) as (N1 & N2 & N3). pose proof (Ok c (or_introl eq_refl)) as Oc.
      destruct (Gc Oc N1 D l D1 r1 P) as (A1 & A2 & A3).
      destruct (IH (fun x Ix => Ok x (or_intror Ix)) N2 D1 ls2 D2 r2 A) as (B1 & B2 & B3 & B4 & B5).
      destruct (tree_good parent nodeOf nodeParent c Oc D l D1 r1 P) as [(_ & Tl & Nl) _].
      assert (Il : forall e t, In (e, t) l -> In (nodeOf e) (ids c)).
      { intros e t I1. destruct (Tl e t I1) as [(b & Nb & ->) _]. exact (ids_nested c b Nb). }
      cbn [concat flat_map]. split; [|split; [exact (le_trans _ _ _ A2 B2)|split; [|split]]].
      + intros e t I1. apply in_app_iff in I1 as [I1|I1]; [exact (strong_le _ _ _ B2 A1 e t I1)|exact (B1 e t I1)].
      + intros n l0 D0 I1. apply in_app_iff in I1 as [I1|I1]; [exact (A3 n l0 D0 I1)|exact (B3 n l0 D0 I1)].
      + intro e. rewrite cnt_app. pose proof (proj1 (NoDup_count_occ Nat.eq_dec (map fst l)) Nl e) as C1. fold (cnt l e) in C1. specialize (B4 e).
        destruct (cnt l e) eqn:E1; [lia|]. destruct (cnt (concat ls2) e) eqn:E2; [lia|]. exfalso.
        assert (I1 : In e (map fst l)) by (apply (count_occ_In Nat.eq_dec); unfold cnt in E1; lia).
        assert (I2 : In e (map fst (concat ls2))) by (apply (count_occ_In Nat.eq_dec); unfold cnt in E2; lia).
        apply in_map_iff in I1 as ([e1 t1] & Q1 & I1). apply in_map_iff in I2 as ([e2 t2] & Q2 & I2). cbn in Q1, Q2. subst e1 e2.
        exact (N3 _ (Il e t1 I1) (B5 e t2 I2)).
      + intros e t I1. apply in_app_iff in I1 as [I1|I1]; apply in_app_iff; [left; exact (Il e t I1)|right; exact (B5 e t I1)].
  Qed.
  Lemma tree_deps a : depGood a.
  Proof.
    induction a as [n own cs IH] using anode_rect'. intros Ok Nd D l D' rs E. cbn [propagate] in E. fold (propAll parent nodeOf) in E.
    destruct (propAll parent nodeOf cs D) as [[ls D1] rc] eqn:A.
    assert (Okc : forall c, In c cs -> ok c).
    { intros c Ic. apply (ok_nested _ _ _ (ANode n own cs) c Ok). apply (NChild n own cs c c Ic). constructor. }
    cbn [ids] in Nd. inversion Nd as [|? ? _ Nd']; subst.
    destruct (all_deps cs IH Okc Nd' D ls D1 rc A) as (B1 & B2 & B3 & B4 & _).
    destruct (fold_left (pull parent nodeOf n) (concat (rev ls)) ([], own, D1)) as [[pushed own'] D2] eqn:P.
    destruct (reduce parent nodeOf (length (pushed ++ own')) n [] (pushed ++ own') D2) as [l' D3] eqn:R. injection E as <- <- <-.
    assert (Cr : forall e, cnt (concat (rev ls)) e = cnt (concat ls) e).
    { clear. intro e. induction ls as [|l0 ls IHl]; [reflexivity|]. cbn [rev concat]. rewrite concat_app, !cnt_app, IHl. cbn [concat]. rewrite app_nil_r. lia. }
    destruct (pull_deps parent nodeOf n _ [] own D1 pushed own' D2 P) as (Q1 & Q2 & Q3 & Q4).
    { intros e t I1. apply (B1 e t). apply in_concat in I1 as (l0 & I1 & I2). apply in_concat. exists l0. split; [apply in_rev; exact I1|exact I2]. }
    { intros e t []. }
    assert (Own : forall e t, In (e, t) own' -> nodeOf e = n).
    { intros e t I1. assert (I2 : In e (map fst own)) by (rewrite <- Q4; apply in_map_iff; exists (e, t); auto).
      apply in_map_iff in I2 as ([e1 t1] & Q & I2). cbn in Q. subst e1. exact (okOwn _ _ _ _ Ok (ANode n own cs) e t1 (NSelf _) I2). }
    destruct (reduce_deps parent nodeOf n _ (fun e Ne => proj1 (proj2 (climb_spec parent nodeOf (okMemory _ _ _ _ Ok) (ok_mono _ _ _ _ Ok) n e e (le_n e) Ne)))
      [] (pushed ++ own') D2 l' D3 R (le_n _)) as [R1 R2].
    { intros e t []. }
    { intros e t I1. apply in_app_iff in I1 as [I1|I1]; [exact (Q1 e t I1)|left; exact (Own e t I1)]. }
    { intros e Ne. rewrite cnt_app. specialize (Q3 e Ne). rewrite Cr in Q3. specialize (B4 e).
      assert (C0 : cnt own' e = 0).
      { unfold cnt. apply count_occ_not_In. intro I1. apply in_map_iff in I1 as ([e1 t1] & Q & I1). cbn in Q. subst e1. exact (Ne (Own e t1 I1)). }
      change (cnt [] e) with 0 in Q3. lia. }
    split; [exact R1|]. split; [exact (le_trans _ _ _ B2 (le_trans _ _ _ Q2 R2))|].
    intros k l0 D0 I1. apply in_app_iff in I1 as [I1|[I1|[]]]; [exact (B3 k l0 D0 I1)|]. injection I1 as _ <- <-. exact R1.
  Qed.
End DepTree.
Lemma deps_true : C88_deps_claim.
Proof.
  intros parent nodeOf nodeParent a D b l D' m w Ok Nd St Im Ew. unfold stored in St.
  destruct (propagate parent nodeOf a D) as [[l0 D0] rs] eqn:P. cbn [snd] in St.
  destruct (tree_deps parent nodeOf nodeParent a Ok Nd D l0 D0 rs P) as (_ & _ & H).
  apply (H _ l D' St m w Im). unfold isDep. rewrite Ew. reflexivity.
Qed.
