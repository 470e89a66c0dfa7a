(** Parallel execution of a loop with private copies or a shared location. *)
From Coq Require Import ZArith List Permutation Lia PeanoNat Bool.
From Verif Require Import TraitModel TraitSpec PrivModel PrivSpec.
Import ListNotations.
Open Scope nat_scope.

Lemma writes_dec p : forall m x, {writes p m x} + {~ writes p m x}.
Proof.
  induction p as [|c k IH|c v p IH]; intros m x; cbn [writes].
  - now right.
  - apply IH.
  - destruct (Nat.eq_dec c x) as [E|E]; [left; now left|].
    destruct (IH (upd m c v) x) as [H|H]; [left; now right|].
    right. intros [F|F]; auto.
Qed.

Lemma writes_touches p : forall m x, writes p m x -> touches p m x.
Proof.
  induction p as [|c k IH|c v p IH]; intros m x; cbn [writes touches]; auto.
  intros [E|H]; [now left|right; auto].
Qed.
Lemma exposes_touches p : forall m x, exposes p m x -> touches p m x.
Proof.
  induction p as [|c k IH|c v p IH]; intros m x; cbn [exposes touches]; auto.
  - intros [E|H]; [now left|right; auto].
  - intros [_ H]; right; auto.
Qed.

Lemma final_unwritten p : forall m x, ~ writes p m x -> finalOf p m x = m x.
Proof.
  induction p as [|c k IH|c v p IH]; intros m x; cbn [writes finalOf]; intro H; auto.
  rewrite IH by tauto. unfold upd.
  destruct (Nat.eqb_spec x c) as [E|E]; auto. exfalso. apply H. now left.
Qed.

Lemma agree p : forall m M, (forall c, exposes p m c -> M c = m c) ->
  readsOf p M = readsOf p m /\
  (forall c, writes p M c <-> writes p m c) /\
  (forall c, touches p M c <-> touches p m c) /\
  (forall c, writes p m c -> finalOf p M c = finalOf p m c).
Proof.
  induction p as [|c k IH|c v p IH]; intros m M H; cbn [readsOf writes touches finalOf].
  - repeat split; auto; intros; tauto.
  - assert (E : M c = m c) by (apply H; cbn; now left).
    rewrite E. destruct (IH (m c) m M) as (A & B & C & D).
    { intros x X. apply H. cbn. now right. }
    rewrite A. split; [reflexivity|]. split; [exact B|]. split; [|exact D].
    intro x. rewrite C. tauto.
  - destruct (IH (upd m c v) (upd M c v)) as (A & B & C & D).
    { intros x X. unfold upd. destruct (Nat.eqb_spec x c) as [E|E]; auto.
      apply H. cbn. split; auto. }
    split; [exact A|]. split; [intro x; rewrite B; tauto|].
    split; [intro x; rewrite C; tauto|].
    intros x X. destruct (writes_dec p (upd m c v) x) as [W|W]; auto.
    rewrite (final_unwritten p (upd m c v) x W), final_unwritten
      by (rewrite B; exact W).
    unfold upd. destruct (Nat.eqb_spec x c) as [E|E]; auto.
    destruct X as [X|X]; [congruence|contradiction].
Qed.

Section Loop.
Variables (ps : list prog) (m0 : mem).
Notation n := (length ps).
Notation startOf := (startOf ps m0).
Notation writesAt := (writesAt ps m0).
Notation touchesAt := (touchesAt ps m0).
Notation exposesAt := (exposesAt ps m0).
Notation noExposed := (noExposed ps m0).
Notation noCarried := (noCarried ps m0).
Notation neverWritten := (neverWritten ps m0).

Lemma startOf_S i : i < n -> startOf (S i) = finalOf (iter ps i) (startOf i).
Proof.
  intro L. unfold PrivSpec.startOf, runAll, iter.
  rewrite <- (firstn_skipn (S i) ps) at 2.
  assert (E : firstn (S i) ps = firstn i ps ++ [nth i ps Done]).
  { clear -L. revert i L. induction ps as [|a l IH]; intros i L; cbn in L; [lia|].
    destruct i as [|i]; [reflexivity|]. cbn [firstn nth app]. f_equal. apply IH. lia. }
  rewrite E. rewrite <- app_assoc. rewrite app_nth2; rewrite firstn_length_le by lia; [|lia].
  rewrite Nat.sub_diag. cbn [nth app]. rewrite fold_left_app. reflexivity.
Qed.
Lemma startOf_n : startOf n = runAll ps m0.
Proof. unfold PrivSpec.startOf. now rewrite firstn_all. Qed.
Lemma startOf_0 : startOf 0 = m0.
Proof. reflexivity. Qed.

Lemma start_same c i k : i <= k -> k <= n ->
  (forall j, i <= j -> j < k -> ~ writesAt j c) -> startOf k c = startOf i c.
Proof.
  intros L K H. induction L as [|k L IH]; [reflexivity|].
  rewrite startOf_S by lia. rewrite final_unwritten.
  - apply IH; [lia|]. intros j A B. apply H; lia.
  - apply H; lia.
Qed.

Lemma exposed_start c i : i < n -> noCarried c -> touchesAt i c -> startOf i c = m0 c.
Proof.
  intros L C T. rewrite <- startOf_0. apply start_same; try lia.
  intros j _ J W. apply (C j i); auto; lia.
Qed.
Lemma neverWritten_noCarried c : neverWritten c -> noCarried c.
Proof. intros H i j A B N W. exfalso. exact (H i A W). Qed.
Lemma never_start c i : i <= n -> neverWritten c -> startOf i c = m0 c.
Proof.
  intros L H. rewrite <- startOf_0. apply start_same; try lia.
  intros j _ J. apply H. lia.
Qed.

(** *** Private copies *)
Definition invP (ran : list nat) (copies : nat -> mem) : Prop :=
  forall c, noExposed c \/
    (noCarried c /\ forall k, copies k c = m0 c \/ exists j, In j ran /\ j < n /\ writesAt j c).

Definition recOk (copies : nat -> mem) (q : nat * (list Z * (mem * mem))) : Prop :=
  let '(i, (tr, (x, s))) := q in
  i < n /\ sameReads ps m0 i tr /\
  (forall c, writes (iter ps i) s c <-> writesAt i c) /\
  (forall c, writesAt i c -> x c = startOf (S i) c) /\
  (forall c, neverWritten c -> (forall k, copies k c = m0 c) -> x c = m0 c).

Lemma exec_ok th : forall order ran copies,
  NoDup (ran ++ order) -> (forall i, In i order -> i < n) -> invP ran copies ->
  (forall q, In q (execPrivate ps th order copies) -> recOk copies q) /\
  (forall i, In i order <-> exists tr x s, In (i, (tr, (x, s))) (execPrivate ps th order copies)).
Proof.
  induction order as [|i order IH]; intros ran copies ND B I.
  - split; [intros q []|]. intro i; split; [intros []|]. intros (? & ? & ? & []).
  - cbn [execPrivate]. set (m := copies (th i)). set (m' := finalOf (iter ps i) m).
    assert (Li : i < n) by (apply B; now left).
    assert (Ni : ~ In i ran).
    { intro H. apply NoDup_remove_2 in ND. apply ND. apply in_or_app. now left. }
    destruct (agree (iter ps i) (startOf i) m) as (A1 & A2 & A3 & A4).
    { intros c E. destruct (I c) as [NE|[NC K]]; [exfalso; exact (NE i Li E)|].
      assert (T : touchesAt i c) by (apply exposes_touches; exact E).
      rewrite (exposed_start c i Li NC T). unfold m.
      destruct (K (th i)) as [H|(j & J1 & J2 & J3)]; auto.
      exfalso. apply (NC j i J2 Li); auto. intro; subst; auto. }
    set (copies' := fun t => if Nat.eqb t (th i) then m' else copies t).
    destruct (IH (ran ++ [i]) copies') as (R & E).
    { now rewrite <- app_assoc. }
    { intros j J. apply B. now right. }
    { intro c. destruct (I c) as [NE|[NC K]]; [now left|right]. split; [exact NC|].
      intro k. unfold copies'. destruct (Nat.eqb_spec k (th i)) as [Ek|Ek].
      - destruct (writes_dec (iter ps i) m c) as [W|W].
        + right. exists i. split; [apply in_or_app; right; now left|]. split; auto.
          now apply A2.
        + unfold m'. rewrite final_unwritten by exact W.
          destruct (K (th i)) as [H|(j & J1 & J2 & J3)]; [now left|right].
          exists j. split; [apply in_or_app; now left|auto].
      - destruct (K k) as [H|(j & J1 & J2 & J3)]; [now left|right].
        exists j. split; [apply in_or_app; now left|auto]. }
    split.
    + intros q [Q|Q].
      * subst q. unfold recOk. split; [exact Li|]. split; [exact A1|].
        split; [exact A2|]. split.
        -- intros c W. unfold m'. rewrite startOf_S by exact Li. now apply A4.
        -- intros c N K. unfold m'. rewrite final_unwritten; [apply K|].
           rewrite A2. apply N. exact Li.
      * specialize (R q Q). destruct q as (j & tr & x & s). unfold recOk in R |- *.
        destruct R as (R1 & R2 & R3 & R4 & R5). repeat split; auto; try (now apply R3).
        intros c N K. apply R5; [exact N|]. intro k. unfold copies'.
        destruct (Nat.eqb_spec k (th i)) as [Ek|Ek]; [|apply K].
        unfold m'. rewrite final_unwritten; [apply K|]. rewrite A2. apply N. exact Li.
    + intro j. cbn [In]. split.
      * intros [H|H].
        -- subst j. eexists _, _, _. left. reflexivity.
        -- apply E in H. destruct H as (tr & x & s & H). exists tr, x, s. now right.
      * intros (tr & x & s & [H|H]).
        -- left. congruence.
        -- right. apply E. eauto.
Qed.

(** *** A shared location *)
Section Shared.
Hypothesis NC : forall c, noCarried c.

Lemma solo i : i < n ->
  readsOf (iter ps i) m0 = readsOf (iter ps i) (startOf i) /\
  (forall c, writes (iter ps i) m0 c <-> writesAt i c) /\
  (forall c, touches (iter ps i) m0 c <-> touchesAt i c) /\
  (forall c, writesAt i c -> finalOf (iter ps i) m0 c = startOf (S i) c).
Proof.
  intro L. rewrite startOf_S by exact L. apply agree.
  intros c E. symmetry. apply exposed_start; auto. now apply exposes_touches.
Qed.

(* the rest of the i-th iteration, executed alone from [own], continues the
   execution of the whole iteration from the initial memory *)
Definition threadOk (i : nat) (q : prog * list Z) (own : mem) : Prop :=
  (forall c, finalOf (fst q) own c = finalOf (iter ps i) m0 c) /\
  snd q ++ readsOf (fst q) own = readsOf (iter ps i) m0 /\
  (forall c, writes (fst q) own c -> writes (iter ps i) m0 c) /\
  (forall c, touches (fst q) own c -> touches (iter ps i) m0 c) /\
  (forall c, ~ writes (iter ps i) m0 c -> own c = m0 c).

Definition invS (st : list (prog * list Z) * mem) : Prop :=
  length (fst st) = n /\
  exists own : nat -> mem,
    (forall i, i < n -> threadOk i (nth i (fst st) (Done, [])) (own i)) /\
    (forall c, (forall i, i < n -> ~ writes (iter ps i) m0 c) -> snd st c = m0 c) /\
    (forall c i, i < n -> writes (iter ps i) m0 c -> snd st c = own i c).

Lemma invS_init : invS (map (fun p => (p, [])) ps, m0).
Proof.
  split; [cbn; now rewrite map_length|]. exists (fun _ => m0). cbn [fst snd].
  split; [|split; auto]. intros i L.
  change (Done, @nil Z) with ((fun p : prog => (p, @nil Z)) Done). rewrite map_nth.
  unfold threadOk. cbn [fst snd]. repeat split; auto.
Qed.

Lemma nth_mid (A : Type) (a b : list A) x d : nth (length a) (a ++ x :: b) d = x.
Proof. rewrite app_nth2 by lia. now rewrite Nat.sub_diag. Qed.
Lemma nth_mid_other (A : Type) (a b : list A) x y d j : j <> length a ->
  nth j (a ++ x :: b) d = nth j (a ++ y :: b) d.
Proof.
  intro N. destruct (Nat.lt_ge_cases j (length a)) as [L|L].
  - now rewrite !app_nth1 by exact L.
  - rewrite !app_nth2 by exact L. destruct (j - length a) as [|k] eqn:E; [lia|reflexivity].
Qed.

Lemma invS_step s t : sharedStep s t -> invS s -> invS t.
Proof.
  intros S (LN & own & T & U & W). destruct S as [a b c k tr m|a b c v p tr m];
    cbn [fst snd] in *.
  - set (i := length a).
    assert (Li : i < n) by (unfold i; rewrite <- LN, app_length; cbn; lia).
    pose proof (T i Li) as Ti. unfold i in Ti. rewrite nth_mid in Ti. fold i in Ti.
    destruct Ti as (T1 & T2 & T3 & T4 & T5). cbn [fst snd finalOf readsOf writes touches] in *.
    assert (V : m c = own i c).
    { destruct (writes_dec (iter ps i) m0 c) as [Wi|Wi]; [now apply W|].
      rewrite (T5 c Wi). apply U. intros j Lj Wj.
      destruct (Nat.eq_dec j i) as [E|E]; [subst j; contradiction|].
      destruct (solo j Lj) as (_ & Sj & _). destruct (solo i Li) as (_ & _ & Si & _).
      apply (NC c j i); auto; [now apply Sj|]. apply Si. apply T4. now left. }
    split; [cbn; rewrite <- LN, !app_length; reflexivity|]. cbn [fst snd].
    exists own. split; [|split; [exact U|exact W]].
    intros j Lj. destruct (Nat.eq_dec j i) as [E|E].
    + subst j. unfold i at 2. rewrite nth_mid. unfold threadOk. cbn [fst snd].
      rewrite V. repeat split; auto. rewrite <- app_assoc. exact T2.
    + rewrite (nth_mid_other _ a b _ (Read c k, tr)) by exact E. now apply T.
  - set (i := length a).
    assert (Li : i < n) by (unfold i; rewrite <- LN, app_length; cbn; lia).
    pose proof (T i Li) as Ti. unfold i in Ti. rewrite nth_mid in Ti. fold i in Ti.
    destruct Ti as (T1 & T2 & T3 & T4 & T5). cbn [fst snd finalOf readsOf writes touches] in *.
    assert (Wc : writes (iter ps i) m0 c) by (apply T3; now left).
    assert (Ot : forall j, j < n -> j <> i -> ~ writes (iter ps j) m0 c).
    { intros j Lj E Wj. destruct (solo j Lj) as (_ & Sj & _).
      destruct (solo i Li) as (_ & _ & Si & _).
      apply (NC c j i); auto; [now apply Sj|]. apply Si. apply T4. now left. }
    split; [cbn; rewrite <- LN, !app_length; reflexivity|]. cbn [fst snd].
    exists (fun j => if Nat.eqb j i then upd (own i) c v else own j).
    split; [|split].
    + intros j Lj. destruct (Nat.eqb_spec j i) as [E|E].
      * subst j. unfold i at 2. rewrite nth_mid. unfold threadOk. cbn [fst snd].
        repeat split; auto. intros x Wx. unfold upd.
        destruct (Nat.eqb_spec x c) as [Ex|Ex]; [subst x; contradiction|now apply T5].
      * rewrite (nth_mid_other _ a b _ (Write c v p, tr)) by exact E. now apply T.
    + intros x Wx. unfold upd. destruct (Nat.eqb_spec x c) as [Ex|Ex].
      * subst x. exfalso. exact (Wx i Li Wc).
      * now apply U.
    + intros x j Lj Wj. unfold upd. destruct (Nat.eqb_spec x c) as [Ex|Ex].
      * subst x. destruct (Nat.eqb_spec j i) as [E|E].
        -- now rewrite Nat.eqb_refl.
        -- exfalso. exact (Ot j Lj E Wj).
      * destruct (Nat.eqb_spec j i) as [E|E].
        -- subst j. destruct (Nat.eqb_spec x c); [contradiction|]. now apply W.
        -- now apply W.
Qed.

Lemma invS_steps s t : sharedSteps s t -> invS s -> invS t.
Proof. induction 1 as [s|s t u H _ IH]; auto. intro I. apply IH. eapply invS_step; eauto. Qed.

Lemma last_writer c : forall k, (exists i, i < k /\ writesAt i c /\ forall j, i < j -> j < k -> ~ writesAt j c)
  \/ (forall i, i < k -> ~ writesAt i c).
Proof.
  induction k as [|k IH]; [right; intros; lia|].
  destruct (writes_dec (iter ps k) (startOf k) c) as [H|H].
  - left. exists k. split; [lia|]. split; [exact H|]. intros; lia.
  - destruct IH as [(i & A & B & C)|IH].
    + left. exists i. split; [lia|]. split; [exact B|]. intros j J K.
      destruct (Nat.eq_dec j k) as [E|E]; [subst; exact H|apply C; lia].
    + right. intros i L. destruct (Nat.eq_dec i k) as [E|E]; [subst; exact H|apply IH; lia].
Qed.

Lemma shared_ok : sharedCorrect ps m0.
Proof.
  intros final m S F. apply invS_steps in S; [|exact invS_init].
  destruct S as (LN & own & T & U & W). cbn [fst snd] in *.
  assert (D : forall i, i < n -> fst (nth i final (Done, [])) = Done).
  { intros i L. apply F. apply nth_In. now rewrite LN. }
  split; [exact LN|]. split.
  - intros i L. destruct (T i L) as (_ & T2 & _). rewrite (D i L) in T2.
    cbn [readsOf] in T2. rewrite app_nil_r in T2. rewrite T2. unfold sameReads.
    now destruct (solo i L).
  - intro c. destruct (last_writer c n) as [(i & L & Wi & Lst)|N].
    + destruct (solo i L) as (_ & Sw & _ & Sf).
      rewrite (W c i L) by (now apply Sw).
      destruct (T i L) as (T1 & _). specialize (T1 c). rewrite (D i L) in T1.
      cbn [finalOf] in T1. rewrite T1, (Sf c Wi), <- startOf_n.
      symmetry. apply start_same; try lia. intros j A B. apply Lst; lia.
    + rewrite U.
      * rewrite <- startOf_n. symmetry. apply never_start; [lia|exact N].
      * intros i L. destruct (solo i L) as (_ & Sw & _). rewrite Sw. now apply N.
Qed.
End Shared.

(** *** Correctness of treatments *)
Variable used : cell -> Prop.
Definition goodFor (t : treatment) (c : cell) : Prop :=
  match t with
  | Ignore | Reduce | Induct => forall i, i < n -> ~ touchesAt i c
  | Share => noCarried c
  | MakePrivate | CopyOutSecondToLast => noExposed c /\ ~ used c
  | CopyIn => neverWritten c \/ noExposed c /\ ~ used c
  | CopyOutLast | CopyOutDynamic => noExposed c /\ (used c -> lastWrites ps m0 c)
  | CopyInOutLast => neverWritten c \/ noExposed c /\ (used c -> lastWrites ps m0 c)
  | CopyInOutSecondToLast => neverWritten c \/
      noExposed c /\ (used c -> othersWrite ps m0 c /\ lastDoesNot ps m0 c)
  | CopyInOutDynamic => noExposed c \/ noCarried c
  | Serialize => True
  end.

Definition readsFine (copyIn : bool) (c : cell) : Prop :=
  noExposed c \/ copyIn = true /\ noCarried c.

Lemma exec_good copyIn : (forall c, readsFine copyIn c) ->
  forall th order copies, Permutation order (seq 0 n) ->
  (copyIn = true -> forall k c, copies k c = m0 c) ->
  (forall q, In q (execPrivate ps th order copies) -> recOk copies q) /\
  (forall i, i < n <-> exists tr x s, In (i, (tr, (x, s))) (execPrivate ps th order copies)).
Proof.
  intros H th order copies P K.
  destruct (exec_ok th order [] copies) as (A & B).
  - cbn. eapply Permutation_NoDup; [symmetry; exact P|apply seq_NoDup].
  - intros i I. eapply Permutation_in in I; [|exact P]. apply in_seq in I. lia.
  - intro c. destruct (H c) as [NE|[E NCc]]; [now left|right]. split; [exact NCc|].
    intro k. left. now apply K.
  - split; [exact A|]. intro i. rewrite <- B. split; intro I.
    + eapply Permutation_in; [symmetry; exact P|]. apply in_seq. lia.
    + eapply Permutation_in in I; [|exact P]. apply in_seq in I. lia.
Qed.

(* what is known about copies stored by iterations *)
Lemma written_iff r copies c : (forall q, In q r -> recOk copies q) ->
  (forall i, i < n <-> exists tr x s, In (i, (tr, (x, s))) r) ->
  forall i, writtenIn ps r i c <-> i < n /\ writesAt i c.
Proof.
  intros A B i. split.
  - intros (tr & x & s & I & W). specialize (A _ I). destruct A as (L & _ & A & _).
    split; [exact L|now apply A].
  - intros (L & W). apply B in L. destruct L as (tr & x & s & I). exists tr, x, s.
    split; [exact I|]. specialize (A _ I). destruct A as (_ & _ & A & _). now apply A.
Qed.
Lemma copy_written r copies c i x : (forall q, In q r -> recOk copies q) ->
  copyOf r i x -> writesAt i c -> x c = startOf (S i) c.
Proof.
  intros A (tr & s & I) W. specialize (A _ I). destruct A as (_ & _ & _ & A & _). now apply A.
Qed.
Lemma copy_never r copies c i x : (forall q, In q r -> recOk copies q) ->
  copyOf r i x -> neverWritten c -> (forall k, copies k c = m0 c) -> x c = m0 c.
Proof.
  intros A (tr & s & I) W K. specialize (A _ I). destruct A as (_ & _ & _ & _ & A). now apply A.
Qed.

Lemma copy_exists r i : (forall i, i < n <-> exists tr x s, In (i, (tr, (x, s))) r) ->
  i < n -> exists x, copyOf r i x.
Proof. intros B L. apply B in L. destruct L as (tr & x & s & I). exists x, tr, s. exact I. Qed.

Lemma good_result t copyIn : 
  (copyIn = true /\ In t [CopyIn; CopyInOutLast; CopyInOutSecondToLast; CopyInOutDynamic] \/
   copyIn = false /\ In t [MakePrivate; CopyOutLast; CopyOutSecondToLast; CopyOutDynamic]) ->
  (forall c, goodFor t c) -> privateCorrect ps m0 used t copyIn.
Proof.
  intros T G th order junk copies P K. cbv zeta.
  destruct (exec_good copyIn) with (th := th) (order := order) (copies := copies)
    as (A & B); auto.
  { intro c. specialize (G c). unfold readsFine.
    destruct T as [[-> [<-|[<-|[<-|[<-|[]]]]]]|[-> [<-|[<-|[<-|[<-|[]]]]]]]; cbn [goodFor] in G;
      try (left; now apply G);
      destruct G as [G|G]; try (left; now apply G); right; split; auto;
      now apply neverWritten_noCarried. }
  set (r := execPrivate ps th order copies) in *.
  pose proof (written_iff r copies) as WI.
  split; [|split].
  - intros i tr xs I. destruct xs as (x & s). specialize (A _ I). now destruct A as (_ & A & _).
  - intros c v Us R. specialize (G c). rewrite <- startOf_n.
    assert (LW : lastWrites ps m0 c -> forall k x, n = S k -> copyOf r k x -> x c = startOf n c).
    { intros L k x E C. rewrite E. eapply copy_written; eauto.
      assert (E' : k = n - 1) by lia. rewrite E'. apply L. lia. }
    assert (NW : neverWritten c -> copyIn = true -> forall k x, copyOf r k x -> x c = startOf n c).
    { intros N E k x C. rewrite (never_start c n) by (auto; lia).
      eapply copy_never; eauto. }
    assert (DY : forall i x, writesAt i c -> i < n -> (forall j, i < j -> ~ writtenIn ps r j c) ->
      copyOf r i x -> x c = startOf n c).
    { intros i x W L Nx C. rewrite (copy_written r copies c i x A C W).
      symmetry. apply start_same; try lia. intros j J1 J2 Wj.
      apply (Nx j); [lia|]. apply WI; auto. }
    destruct T as [[-> [<-|[<-|[<-|[<-|[]]]]]]|[-> [<-|[<-|[<-|[<-|[]]]]]]];
      cbn [goodFor resultAt] in G, R.
    + destruct G as [G|[_ G]]; [|contradiction]. subst v. symmetry. now apply never_start.
    + destruct (length ps) as [|k] eqn:E.
      { subst v. symmetry. rewrite startOf_0. reflexivity. }
      destruct R as (x & C & ->).
      destruct G as [G|[_ G]].
      * eapply NW; eauto.
      * apply (LW (G Us) k x); auto.
    + destruct (length ps) as [|[|k]] eqn:E.
      * subst v. reflexivity.
      * subst v. cbn [unwritten]. destruct G as [G|[_ G]].
        -- symmetry. apply never_start; [lia|exact G].
        -- destruct (G Us) as (_ & LD). rewrite <- startOf_0. symmetry.
           apply start_same; try lia. intros j _ J.
           assert (E' : j = length ps - 1) by lia. rewrite E'. apply LD. lia.
      * destruct R as (x & C & ->). destruct G as [G|[_ G]].
        -- eapply NW; eauto.
        -- destruct (G Us) as (OW & LD).
           assert (W : writesAt k c) by (apply OW; lia).
           rewrite (copy_written r copies c k x A C W). symmetry.
           apply start_same; try lia. intros j J1 J2.
           assert (E' : j = length ps - 1) by lia. rewrite E'. apply LD. lia.
    + destruct R as [(i & x & W & Nx & C & ->)|(Nx & ->)].
      * apply WI in W; auto. destruct W as (L & W). eapply DY; eauto.
      * cbn [unwritten]. symmetry. apply never_start; [lia|].
        intros i L W. apply (Nx i). apply WI; auto.
    + now destruct G.
    + destruct (length ps) as [|k] eqn:E.
      { subst v. reflexivity. }
      destruct R as (x & C & ->). apply (LW (proj2 G Us) k x); auto.
    + now destruct G.
    + destruct R as [(i & x & W & Nx & C & ->)|(Nx & ->)].
      * apply WI in W; auto. destruct W as (L & W). eapply DY; eauto.
      * destruct (length ps) as [|k] eqn:E.
        -- unfold unwritten. rewrite E. reflexivity.
        -- exfalso. apply (Nx (length ps - 1)). apply WI; auto. split; [lia|].
           apply (proj2 G Us). lia.
  - intros c Us. specialize (G c).
    assert (DY : exists v, (exists i x, writtenIn ps r i c /\ (forall j, i < j -> ~ writtenIn ps r j c) /\
         copyOf r i x /\ v = x c) \/
      ((forall i, ~ writtenIn ps r i c) /\ v = unwritten ps m0 copyIn junk c)).
    { destruct (last_writer c n) as [(i & L & W & N)|N].
      - destruct (copy_exists r i B L) as (x & C). exists (x c). left. exists i, x.
        split; [apply WI; auto|]. split; [|auto]. intros j J H. apply WI in H; auto.
        destruct H as (H1 & H2). exact (N j J H1 H2).
      - eexists. right. split; [|reflexivity]. intros i H. apply WI in H; auto.
        destruct H as (H1 & H2). exact (N i H1 H2). }
    destruct T as [[-> [<-|[<-|[<-|[<-|[]]]]]]|[-> [<-|[<-|[<-|[<-|[]]]]]]];
      cbn [resultAt].
    + eexists; reflexivity.
    + destruct (length ps) as [|k] eqn:E; [eexists; reflexivity|].
      destruct (copy_exists r k) as (x & C); [intro; now rewrite <- E in * |lia|]. eauto.
    + destruct (length ps) as [|[|k]] eqn:E; try (eexists; reflexivity).
      destruct (copy_exists r k) as (x & C); [intro; now rewrite <- E in * |lia|]. eauto.
    + exact DY.
    + now exists 0%Z.
    + destruct (length ps) as [|k] eqn:E; [eexists; reflexivity|].
      destruct (copy_exists r k) as (x & C); [intro; now rewrite <- E in * |lia|]. eauto.
    + destruct (length ps) as [|[|k]] eqn:E; try (eexists; reflexivity).
      destruct (copy_exists r k) as (x & C); [intro; now rewrite <- E in * |lia|]. eauto.
    + exact DY.
Qed.

Lemma goodFor_correct t : (forall c, goodFor t c) -> correctWith ps m0 used t.
Proof.
  intro G. destruct t; cbn [correctWith];
    try (intros i c; apply (G c)); try exact I;
    try (apply good_result; [|exact G]; cbn [In]; tauto).
  now apply shared_ok.
Qed.
End Loop.
