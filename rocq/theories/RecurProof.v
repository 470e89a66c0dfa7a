(** Proofs about the search for recursion (C71). *)
From Coq Require Import List Bool Arith Lia.
From Verif Require Import RecurModel RecurSpec.
Import ListNotations.

Lemma mem_iff x l : mem x l = true <-> In x l.
Proof.
  unfold mem. rewrite existsb_exists. split.
  - intros (y & H & E). apply Nat.eqb_eq in E. now subst.
  - intro H. exists x. split; [exact H|apply Nat.eqb_refl].
Qed.

Section R.
Variable ts : list templ.
Hypothesis W : wf ts.

Lemma find_templ l t : NoDup (map tFun l) -> In t l -> find (fun t0 => tFun t0 =? tFun t) l = Some t.
Proof.
  induction l as [|a l IH]; cbn [map In find]; intros D H; [destruct H|].
  inversion D as [|x y N D']; subst. destruct H as [->|H].
  - now rewrite Nat.eqb_refl.
  - destruct (tFun a =? tFun t) eqn:E.
    + apply Nat.eqb_eq in E. exfalso. apply N. rewrite E. now apply in_map.
    + now apply IH.
Qed.
Lemma calls_iff f g : In g (calls ts f) <-> exists t, In t ts /\ tFun t = f /\ In g (tCalls t).
Proof.
  unfold calls. split.
  - destruct (find _ ts) as [t|] eqn:E; [|intros []]. intro H. apply find_some in E as [HI HE].
    apply Nat.eqb_eq in HE. now exists t.
  - intros (t & HI & <- & H). rewrite (find_templ ts t (proj1 W) HI). exact H.
Qed.
Lemma initial_templ t : In t ts -> initial ts (tFun t) = tNeed t.
Proof. intro H. unfold initial. now rewrite (find_templ ts t (proj1 W) H). Qed.

Section N.
Variable need : nat -> bool.
Lemma callees_iff f g : In g (callees ts need f) <-> callsOf ts need f g.
Proof. unfold callees, callsOf. rewrite filter_In, calls_iff. tauto. Qed.
Lemma callsOf_in f g : callsOf ts need f g -> In g (map tFun ts).
Proof. intros ((t & HI & _ & HG) & _). exact (proj2 W t g HI HG). Qed.

(** ** Chains *)
Lemma chain_app f g k h : chain ts need f g k -> forall j, chain ts need g h j -> chain ts need f h (k + j).
Proof.
  intros H j HJ. induction HJ as [h C|h i j HJ IH C].
  - replace (k + 1) with (S k) by lia. econstructor 2; eassumption.
  - replace (k + S j) with (S (k + j)) by lia. econstructor 2; eassumption.
Qed.
Lemma out_chain f g k : chainOut ts need f g k -> chain ts need f g k.
Proof. induction 1; econstructor; eassumption. Qed.
Lemma out_app f g k h : chainOut ts need f g k -> g <> f -> forall j, chain ts need g h j ->
  (forall x i, i < j -> chain ts need g x i -> x <> f) -> chainOut ts need f h (k + j).
Proof.
  intros H N j HJ. induction HJ as [h C|h i j HJ IH C]; intros A.
  - replace (k + 1) with (S k) by lia. econstructor 2; eassumption.
  - replace (k + S j) with (S (k + j)) by lia. apply (OutMore ts need f h i); [|exact (A h j (Nat.lt_succ_diag_r j) HJ)|exact C].
    apply IH. intros x i' L. apply A. lia.
Qed.

(** ** Paths as lists, from the last function to the first one *)
Inductive path (f : nat) : list nat -> Prop :=
| PathOne : path f [f]
| PathMore g h l : path f (g :: l) -> callsOf ts need g h -> path f (h :: g :: l).
Lemma path_chain f l : path f l -> forall g l', l = g :: l' -> forall h, In h l' -> exists k, k <= length l' /\ chain ts need h g k.
Proof.
  induction 1 as [|g h l P IH C]; intros g0 l' [= <- <-] x HX; [destruct HX|].
  destruct HX as [<-|HX].
  - exists 1. cbn [length]. split; [lia|now constructor].
  - destruct (IH g l eq_refl x HX) as (k & L & HC). exists (S k). cbn [length]. split; [lia|]. econstructor 2; eassumption.
Qed.
Lemma path_dup f l : path f l -> ~ NoDup l -> exists g k, In g l /\ chain ts need g g k.
Proof.
  induction 1 as [|g h l P IH C]; intro D.
  - exfalso. apply D. constructor; [intros []|constructor].
  - destruct (in_dec Nat.eq_dec h (g :: l)) as [HI|HN].
    + destruct (path_chain f (h :: g :: l)) with (g := h) (l' := g :: l) (h := h) as (k & _ & HC); [now constructor|reflexivity|exact HI|].
      exists h, k. split; [now left|exact HC].
    + destruct IH as (x & k & HX & HC); [intro D'; apply D; now constructor|]. exists x, k. split; [now right|exact HC].
Qed.
Lemma path_in f l : path f l -> incl l (f :: map tFun ts).
Proof.
  induction 1 as [|g h l P IH C]; intros x HX.
  - destruct HX as [<-|[]]. now left.
  - destruct HX as [<-|HX]; [right; exact (callsOf_in _ _ C)|now apply IH].
Qed.
Lemma long_path f l : path f l -> length l > S (length ts) -> exists g k, In g l /\ chain ts need g g k.
Proof.
  intros P L. apply (path_dup f l P). intro D. pose proof (NoDup_incl_length D (path_in f l P)) as H.
  cbn [length] in H. rewrite map_length in H. lia.
Qed.

(** ** Levels of the search *)
Section T.
Variable order : list nat -> list nat.
Hypothesis O : isOrder order.
Variable f : nat.
Definition level (k : nat) (cs : list nat) : Prop := forall g, In g cs <-> chain ts need f g k.
Lemma level_one : level 1 (callees ts need f).
Proof.
  intro g. rewrite callees_iff. split; [now constructor|]. inversion 1 as [|? ? ? HC]; subst; [assumption|]. inversion HC.
Qed.
Lemma chain_pos g h k : chain ts need g h k -> k >= 1.
Proof. induction 1; lia. Qed.
Lemma level_next k cs : k >= 1 -> level k cs -> level (S k) (flat_map (callees ts need) cs).
Proof.
  intros K L g. rewrite in_flat_map. split.
  - intros (x & HX & HG). apply L in HX. apply callees_iff in HG. econstructor 2; eassumption.
  - intro H. inversion H as [|x ? ? HX HG]; subst; [lia|]. exists x. split; [now apply L|now apply callees_iff].
Qed.
Lemma step_some callers cs c : stepRecursion order callers cs = Some c -> In c callers /\ In c cs.
Proof. unfold stepRecursion. intro H. apply find_some in H as [H1 H2]. split; [now apply O|now apply mem_iff]. Qed.
Lemma step_none callers cs c : stepRecursion order callers cs = None -> In c callers -> ~ In c cs.
Proof.
  unfold stepRecursion. intros H HC HI. apply O in HC. pose proof (find_none _ _ H c HC) as E. cbn beta in E.
  apply mem_iff in HI. congruence.
Qed.
Definition callersOk (k : nat) (callers : list nat) : Prop :=
  In f callers /\ forall c, In c callers -> c = f \/ exists j, j < k /\ chain ts need f c j.

Lemma level_empty k g j : level k [] -> chain ts need f g j -> k >= 1 -> k <= j -> False.
Proof.
  intros L H K. induction H as [g C|g h j H IHc C]; intro LE.
  - assert (k = 1) by lia. subst k. apply (L g). now constructor.
  - destruct (Nat.eq_dec k (S j)) as [->|NE]; [|apply IHc; lia].
    apply (L h). econstructor 2; eassumption.
Qed.
Lemma callers_next k callers cs : level k cs -> callersOk k callers -> callersOk (S k) (callers ++ filter (needToAdd ts need) cs).
Proof.
  intros L (CF & CO). split; [apply in_or_app; now left|]. intros c HC. apply in_app_or in HC as [HC|HC].
  - destruct (CO c HC) as [->|(j & LJ & HJ)]; [now left|]. right. exists j. split; [lia|exact HJ].
  - apply filter_In in HC as [HC _]. right. exists k. split; [lia|now apply L].
Qed.
(** The result of a finished search: a function which the search meets twice *)
Lemma search_sound n : forall k callers cs r, k >= 1 -> level k cs -> callersOk k callers ->
  search ts order n need callers cs = Some r ->
  match r with
  | Some c => exists j, k <= j /\ chain ts need f c j /\ (c = f \/ exists i, i < j /\ chain ts need f c i) /\
                        (forall x i, k <= i < j -> chain ts need f x i -> x <> f)
  | None => forall j, k <= j -> ~ chain ts need f f j
  end.
Proof.
  induction n as [|n IH]; intros k callers cs r K L CK E; [discriminate|]. cbn [search] in E.
  destruct cs as [|c0 cs0] eqn:EC.
  - injection E as <-. intros j LE H. exact (level_empty k f j L H K LE).
  - rewrite <- EC in *. clear EC. destruct (stepRecursion order callers cs) as [c|] eqn:ES.
    + injection E as <-. destruct (step_some _ _ _ ES) as [H1 H2]. exists k. split; [lia|]. split; [now apply L|].
      split; [now apply CK|]. intros x i LI. lia.
    + apply (IH (S k)) in E; [|lia|now apply level_next|now apply callers_next].
      assert (NF : forall x, chain ts need f x k -> x <> f).
      { intros x HX EX. subst x. apply L in HX. exact (step_none _ _ f ES (proj1 CK) HX). }
      destruct r as [c|].
      * destruct E as (j & LJ & HJ & HC & HA). exists j. split; [lia|]. split; [exact HJ|]. split; [exact HC|].
        intros x i LI HX. destruct (Nat.eq_dec i k) as [->|NE]; [now apply NF|]. apply (HA x i); [lia|exact HX].
      * intros j LJ HJ. destruct (Nat.eq_dec j k) as [->|NE]; [exact (NF f HJ eq_refl)|]. apply (E j); [lia|exact HJ].
Qed.

(** A search which does not finish reaches long chains which do not return *)
Lemma search_long n : forall k callers cs, k >= 1 -> level k cs -> callersOk k callers ->
  (forall j, j < k -> ~ chain ts need f f j) ->
  search ts order n need callers cs = None -> 
  (forall j, j < k + n -> ~ chain ts need f f j) /\ (n >= 1 -> exists g, chain ts need f g (k + n - 1)).
Proof.
  induction n as [|n IH]; intros k callers cs K L CK NF E.
  - split; [|lia]. intros j LJ. apply NF. lia.
  - cbn [search] in E. destruct cs as [|c0 cs0] eqn:EC; [discriminate|].
    assert (HC0 : chain ts need f c0 k) by (apply L; now left).
    rewrite <- EC in *. clear EC. destruct (stepRecursion order callers cs) as [c|] eqn:ES; [discriminate|].
    apply (IH (S k)) in E; [|lia|now apply level_next|now apply callers_next|].
    + destruct E as (E1 & E2). split.
      * intros j LJ. apply E1. lia.
      * intros _. destruct n as [|n]; [exists c0; now replace (k + 1 - 1) with k by lia|].
        destruct E2 as (g & HG); [lia|]. exists g. now replace (k + S (S n) - 1) with (S k + S n - 1) by lia.
    + intros j LJ. destruct (Nat.eq_dec j k) as [->|NE]; [|apply NF; lia].
      intro HX. apply L in HX. exact (step_none _ _ f ES (proj1 CK) HX).
Qed.
Lemma callers_one : callersOk 1 [f].
Proof. split; [now left|]. intros c [<-|[]]. now left. Qed.
Lemma chain_out g k : chain ts need f g k -> (forall j, j < k -> ~ chain ts need f f j) -> chainOut ts need f g k.
Proof.
  induction 1 as [g C|g h k H IH C]; intro N; [now constructor|].
  apply (OutMore ts need f g h k).
  - apply IH. intros j LJ. apply N. lia.
  - intro E. subst g. apply (N k); [lia|exact H].
  - exact C.
Qed.
Lemma chain_points g k : chain ts need f g k -> exists l, length l = k /\ forall i, i < k -> chain ts need f (nth i l 0) (S i).
Proof.
  induction 1 as [g C|g h k H (l & L & A) C].
  - exists [g]. split; [reflexivity|]. intros i LI. replace i with 0 by lia. now constructor.
  - exists (l ++ [h]). rewrite app_length. cbn [length]. split; [lia|]. intros i LI.
    destruct (Nat.eq_dec i k) as [->|NE].
    + rewrite app_nth2 by lia. replace (k - length l) with 0 by lia. cbn [nth]. econstructor 2; eassumption.
    + rewrite app_nth1 by lia. apply A. lia.
Qed.
Lemma chain_in g k : chain ts need f g k -> In g (map tFun ts).
Proof. destruct 1; eapply callsOf_in; eassumption. Qed.
Lemma graded_short g k : graded ts need -> chain ts need f g k -> (forall j, j <= k -> ~ chain ts need f f j) -> k <= length ts.
Proof.
  intros G H N. destruct (chain_points g k H) as (l & L & A).
  assert (D : NoDup l).
  { apply (proj2 (NoDup_nth l 0)). intros i j LI LJ E. rewrite L in LI, LJ.
    pose proof (A i LI) as H1. pose proof (A j LJ) as H2. rewrite <- E in H2.
    assert (NE : nth i l 0 <> f). { intro X. rewrite X in H1. apply (N (S i)); [lia|exact H1]. }
    assert (S i = S j); [|lia]. apply (G f (nth i l 0)); [exact NE| |].
    - apply chain_out; [exact H1|]. intros x LX. apply N. lia.
    - apply chain_out; [exact H2|]. intros x LX. apply N. lia. }
  assert (IC : incl l (map tFun ts)).
  { intros x HX. apply (In_nth l x 0) in HX as (i & LI & <-). rewrite L in LI. exact (chain_in _ _ (A i LI)). }
  pose proof (NoDup_incl_length D IC) as Q. rewrite map_length in Q. lia.
Qed.
Lemma no_short j : j < 1 -> ~ chain ts need f f j.
Proof. intros L H. apply chain_pos in H. lia. Qed.
Lemma graded_finishes : graded ts need -> search ts order (length ts + 2) need [f] (callees ts need f) <> None.
Proof.
  intros G E. apply (search_long (length ts + 2) 1) in E; [|lia|apply level_one|apply callers_one|apply no_short].
  destruct E as (N & E). destruct E as (g & H); [lia|].
  assert (Q : 1 + (length ts + 2) - 1 <= length ts); [|lia].
  apply (graded_short g); [exact G|exact H|]. intros j LJ. apply N. lia.
Qed.
Lemma graded_result n r : graded ts need -> search ts order n need [f] (callees ts need f) = Some r ->
  match r with Some c => c = f /\ recursive ts need f | None => ~ recursive ts need f end.
Proof.
  intros G E. apply (search_sound n 1) in E; [|lia|apply level_one|apply callers_one].
  destruct r as [c|].
  - destruct E as (j & LJ & HJ & HC & HA). 
    assert (N : forall i, i < j -> ~ chain ts need f f i).
    { intros i LI H. destruct (Nat.eq_dec i 0) as [->|NZ]; [exact (no_short 0 (Nat.lt_0_1) H)|]. apply (HA f i); [lia|exact H|reflexivity]. }
    assert (c = f).
    { destruct (Nat.eq_dec c f) as [E|NE]; [exact E|]. destruct HC as [E|(i & LI & HI)]; [exact E|]. exfalso.
      assert (i = j); [|lia]. apply (G f c); [exact NE| |].
      - apply chain_out; [exact HI|]. intros x LX. apply N. lia.
      - apply chain_out; [exact HJ|exact N]. }
    subst c. split; [reflexivity|]. now exists j.
  - intros (k & H). apply (E k); [|exact H]. now apply chain_pos in H.
Qed.
Lemma recursive_found n r : search ts order n need [f] (callees ts need f) = Some r -> recursive ts need f -> r <> None.
Proof.
  intros E (k & H) ->. apply (search_sound n 1) in E; [|lia|apply level_one|apply callers_one].
  apply (E k); [|exact H]. now apply chain_pos in H.
Qed.
Lemma self_found n r : search ts order n need [f] (callees ts need f) = Some r -> callsOf ts need f f -> r = Some f.
Proof.
  intros E H. apply callees_iff in H. destruct n as [|n]; [discriminate|]. cbn [search] in E.
  destruct (callees ts need f) as [|c cs] eqn:EC; [destruct H|]. rewrite <- EC in *.
  destruct (stepRecursion order [f] (callees ts need f)) as [x|] eqn:ES.
  - injection E as <-. destruct (step_some _ _ _ ES) as [[<-|[]] _]. reflexivity.
  - exfalso. exact (step_none _ _ f ES (or_introl eq_refl) H).
Qed.

(** ** Termination if all calls are inlined *)
Lemma needToAdd_uniform g : uniform ts need -> callees ts need g <> [] -> needToAdd ts need g = true.
Proof.
  intros U H. unfold needToAdd, callees in *.
  assert (A : (forall x, In x (calls ts g) -> need x = true) \/ (forall x, In x (calls ts g) -> need x = false)).
  { unfold calls. destruct (find _ ts) as [t|] eqn:E; [|now left; intros x []]. apply find_some in E as [HI _]. exact (U t HI). }
  destruct A as [A|A].
  - revert H A. generalize (calls ts g). intros l.
    assert (Q : forall b, (b = true \/ l <> []) -> (forall x, In x l -> need x = true) -> fold_left (fun _ g0 => need g0) l b = true).
    { induction l as [|a l IH]; intros b HB A.
      - destruct HB as [->|N]; [reflexivity|now destruct N].
      - cbn [fold_left]. apply IH; [|intros x HX; apply A; now right]. left. apply A. now left. }
    intros H A. apply Q; [|exact A]. right. intros ->. now apply H.
  - exfalso. apply H. revert A. generalize (calls ts g). intro l. induction l as [|a l IH]; intros A; [reflexivity|].
    cbn [filter]. rewrite (A a (or_introl eq_refl)). apply IH. intros x HX. apply A. now right.
Qed.
Definition rest (callers : list nat) : list nat := filter (fun x => negb (mem x callers)) (map tFun ts).
Lemma filter_less (p q : nat -> bool) l x : (forall y, q y = true -> p y = true) -> In x l -> p x = true -> q x = false ->
  length (filter q l) < length (filter p l).
Proof.
  intros I HX HP HQ. assert (LE : forall m, length (filter q m) <= length (filter p m)).
  { induction m as [|a m IH]; [cbn; lia|]. cbn [filter]. destruct (q a) eqn:EQ; [rewrite (I a EQ); cbn [length]; lia|]. destruct (p a); cbn [length]; lia. }
  induction l as [|a l IH]; [destruct HX|]. cbn [filter]. destruct HX as [->|HX].
  - rewrite HP, HQ. cbn [length]. specialize (LE l). lia.
  - specialize (IH HX). destruct (q a) eqn:EQ; [rewrite (I a EQ); cbn [length]; lia|]. destruct (p a); cbn [length]; lia.
Qed.
Lemma search_uniform : uniform ts need -> forall m callers cs, length (rest callers) < m -> incl cs (map tFun ts) ->
  exists n r, search ts order n need callers cs = Some r.
Proof.
  intros U m. induction m as [|m IH]; intros callers cs L HI; [lia|].
  destruct cs as [|c0 cs0] eqn:EC; [exists 1, None; reflexivity|]. rewrite <- EC in *.
  destruct (stepRecursion order callers cs) as [c|] eqn:ES.
  { exists 1, (Some c). cbn [search]. rewrite EC, <- EC, ES. reflexivity. }
  assert (NX : exists n r, search ts order n need (callers ++ filter (needToAdd ts need) cs) (flat_map (callees ts need) cs) = Some r).
  { destruct (filter (needToAdd ts need) cs) as [|x xs] eqn:EF.
    - assert (Z : flat_map (callees ts need) cs = []).
      { clear - U EF. induction cs as [|a l IH]; [reflexivity|]. cbn [filter] in EF. cbn [flat_map].
        destruct (needToAdd ts need a) eqn:EA; [discriminate|]. rewrite (IH EF), app_nil_r.
        destruct (callees ts need a) as [|y ys] eqn:EY; [reflexivity|]. exfalso.
        rewrite needToAdd_uniform in EA; [discriminate|exact U|rewrite EY; discriminate]. }
      rewrite Z. exists 1, None. reflexivity.
    - apply IH.
      + assert (HX : In x cs /\ needToAdd ts need x = true) by (apply filter_In; rewrite EF; now left).
        destruct HX as [HX HN]. unfold rest in *.
        assert (Q : length (filter (fun y => negb (mem y (callers ++ x :: xs))) (map tFun ts)) < length (filter (fun y => negb (mem y callers)) (map tFun ts))); [|lia].
        apply (filter_less _ _ _ x).
        * intros y HY. apply negb_true_iff in HY. apply negb_true_iff. destruct (mem y callers) eqn:EM; [|reflexivity].
          apply mem_iff in EM. assert (HH : mem y (callers ++ x :: xs) = true) by (apply mem_iff; apply in_or_app; now left). congruence.
        * now apply HI.
        * apply negb_true_iff. destruct (mem x callers) eqn:EM; [|reflexivity]. apply mem_iff in EM. exfalso. exact (step_none _ _ x ES EM HX).
        * apply negb_false_iff. apply mem_iff. apply in_or_app. right. now left.
      + intros y HY. apply in_flat_map in HY as (z & _ & HY). apply callees_iff in HY. exact (callsOf_in _ _ HY). }
  destruct NX as (n & r & E). exists (S n), r. cbn [search]. rewrite EC, <- EC, ES. exact E.
Qed.
End T.

(** ** All templates *)
Section F.
Variable order : list nat -> list nat.
Hypothesis O : isOrder order.
Lemma search_mono n : forall m callers cs r, n <= m -> search ts order n need callers cs = Some r -> search ts order m need callers cs = Some r.
Proof.
  induction n as [|n IH]; intros m callers cs r L E; [discriminate|]. destruct m as [|m]; [lia|].
  cbn [search] in *. destruct cs as [|c cs]; [exact E|]. destruct (stepRecursion order callers (c :: cs)); [exact E|].
  apply IH; [lia|exact E].
Qed.
Lemma fold_finishes l : (forall t, In t l -> exists n r, search ts order n need [tFun t] (callees ts need (tFun t)) = Some r) ->
  exists n, forall m rs, n <= m -> exists rs', fold_left (visit ts order m need) l (Some rs) = Some rs'.
Proof.
  induction l as [|t l IH]; intro H; [exists 0; intros m rs _; now exists rs|].
  destruct IH as (n1 & H1); [intros x HX; apply H; now right|].
  destruct (H t (or_introl eq_refl)) as (n2 & r & E). exists (n1 + n2). intros m rs L.
  cbn [fold_left visit]. destruct (mem (tFun t) rs); [apply H1; lia|].
  rewrite (search_mono n2 m _ _ r) by (lia || exact E). destruct r; apply H1; lia.
Qed.
Lemma fold_none m l : fold_left (visit ts order m need) l None = None.
Proof. induction l as [|t l IH]; [reflexivity|]. cbn [fold_left visit]. exact IH. Qed.
Lemma fold_cases m t l rs rs' : fold_left (visit ts order m need) (t :: l) (Some rs) = Some rs' ->
  (In (tFun t) rs /\ fold_left (visit ts order m need) l (Some rs) = Some rs') \/
  (exists r, search ts order m need [tFun t] (callees ts need (tFun t)) = Some r /\
     fold_left (visit ts order m need) l (Some (match r with Some c => c :: rs | None => rs end)) = Some rs').
Proof.
  cbn [fold_left visit]. destruct (mem (tFun t) rs) eqn:EM.
  - intro H. left. split; [now apply mem_iff|exact H].
  - destruct (search ts order m need [tFun t] (callees ts need (tFun t))) as [r|]; [|now rewrite fold_none].
    intro H. right. exists r. split; [reflexivity|]. now destruct r.
Qed.
Lemma fold_incl m l : forall rs rs', fold_left (visit ts order m need) l (Some rs) = Some rs' -> incl rs rs'.
Proof.
  induction l as [|t l IH]; intros rs rs' E; [injection E as <-; now intros x HX|].
  destruct (fold_cases m t l rs rs' E) as [(_ & H)|(r & _ & H)]; apply IH in H; [exact H|].
  destruct r; [|exact H]. intros x HX. apply H. now right.
Qed.
Lemma fold_exact m l : graded ts need -> forall rs rs', fold_left (visit ts order m need) l (Some rs) = Some rs' ->
  (forall f, In f rs -> recursive ts need f) ->
  (forall f, In f rs' -> recursive ts need f) /\ forall f, In f (map tFun l) -> recursive ts need f -> In f rs'.
Proof.
  intro G. induction l as [|t l IH]; intros rs rs' E HR; [injection E as <-; split; [exact HR|intros f []]|].
  destruct (fold_cases m t l rs rs' E) as [(HI & H)|(r & ER & H)].
  - destruct (IH _ _ H HR) as (I1 & I2). split; [exact I1|]. intros f [<-|HF] HC; [|now apply I2].
    exact (fold_incl m l _ _ H _ HI).
  - pose proof (graded_result order O (tFun t) m r G ER) as Q. destruct r as [c|].
    + destruct Q as [-> Q]. destruct (IH _ _ H) as (I1 & I2).
      { intros f [<-|HF]; [exact Q|now apply HR]. }
      split; [exact I1|]. intros f [<-|HF] HC; [|now apply I2]. apply (fold_incl m l _ _ H). now left.
    + destruct (IH _ _ H HR) as (I1 & I2). split; [exact I1|]. intros f [<-|HF] HC; [now destruct (Q HC)|now apply I2].
Qed.
Lemma fold_self m l : forall rs rs', fold_left (visit ts order m need) l (Some rs) = Some rs' ->
  forall f, In f (map tFun l) -> callsOf ts need f f -> In f rs'.
Proof.
  induction l as [|t l IH]; intros rs rs' E f HF HC; [destruct HF|].
  destruct (fold_cases m t l rs rs' E) as [(HI & H)|(r & ER & H)].
  - destruct HF as [<-|HF]; [exact (fold_incl m l _ _ H _ HI)|]. eapply IH; eassumption.
  - destruct HF as [<-|HF]; [|eapply IH; eassumption].
    rewrite (self_found order O (tFun t) m r ER HC) in H. apply (fold_incl m l _ _ H). now left.
Qed.
Lemma fold_some m l : forall rs rs', fold_left (visit ts order m need) l (Some rs) = Some rs' ->
  (exists f, In f (map tFun l) /\ recursive ts need f) -> rs' <> [].
Proof.
  assert (NE : forall (l1 l2 : list nat) x, In x l1 -> incl l1 l2 -> l2 <> []).
  { intros l1 l2 x HX HI ->. now apply HI in HX. }
  induction l as [|t l IH]; intros rs rs' E (f & HF & HC); [destruct HF|].
  destruct (fold_cases m t l rs rs' E) as [(HI & H)|(r & ER & H)].
  - exact (NE _ _ _ HI (fold_incl m l _ _ H)).
  - destruct HF as [<-|HF].
    + destruct r as [c|]; [|now destruct (recursive_found order O (tFun t) m None ER HC)].
      apply (NE _ _ c) with (2 := fold_incl m l _ _ H). now left.
    + apply (IH _ _ H). now exists f.
Qed.
(** A function which is found is met twice *)
Lemma fold_repeated m l : forall rs rs', fold_left (visit ts order m need) l (Some rs) = Some rs' ->
  forall c, In c rs' -> In c rs \/ exists t k j, In t l /\ (c = tFun t /\ k = 0 \/ chain ts need (tFun t) c k) /\ k < j /\ chain ts need (tFun t) c j.
Proof.
  induction l as [|t l IH]; intros rs rs' E c HC; [injection E as <-; now left|].
  destruct (fold_cases m t l rs rs' E) as [(HI & H)|(r & ER & H)].
  - destruct (IH _ _ H c HC) as [HX|(t0 & k & j & HT & Q)]; [now left|]. right. exists t0, k, j. split; [now right|exact Q].
  - destruct (IH _ _ H c HC) as [HX|(t0 & k & j & HT & Q)]; [|right; exists t0, k, j; split; [now right|exact Q]].
    destruct r as [x|]; [|now left]. destruct HX as [->|HX]; [|now left]. right.
    apply (search_sound order O (tFun t) m 1) in ER; [|lia|apply level_one|apply callers_one].
    destruct ER as (j & LJ & HJ & [->|(i & LI & HI)] & _).
    + exists t, 0, j. split; [now left|]. split; [now left|]. split; [lia|exact HJ].
    + exists t, i, j. split; [now left|]. split; [now right|]. split; [lia|exact HJ].
Qed.
End F.
End N.

(** ** Expansion *)
Lemma callsOf_less (n1 n2 : nat -> bool) f g : (forall x, n1 x = true -> n2 x = true) -> callsOf ts n1 f g -> callsOf ts n2 f g.
Proof. intros H (A & B). split; [exact A|now apply H]. Qed.
Lemma chain_less (n1 n2 : nat -> bool) f g k : (forall x, n1 x = true -> n2 x = true) -> chain ts n1 f g k -> chain ts n2 f g k.
Proof. intros H C. induction C; econstructor; try eassumption; eapply callsOf_less; eassumption. Qed.
Lemma out_less (n1 n2 : nat -> bool) f g k : (forall x, n1 x = true -> n2 x = true) -> chainOut ts n1 f g k -> chainOut ts n2 f g k.
Proof. intros H C. induction C; econstructor; try eassumption; eapply callsOf_less; eassumption. Qed.
Lemma graded_less (n1 n2 : nat -> bool) : (forall x, n1 x = true -> n2 x = true) -> graded ts n2 -> graded ts n1.
Proof. intros H G f g j k N H1 H2. apply (G f g); [exact N| |]; eapply out_less; eassumption. Qed.
Lemma expand_chain need n : forall f, expand ts n need f = false -> n = 0 \/ exists g k, S k = n /\ (k = 0 \/ chain ts need f g k).
Proof.
  induction n as [|n IH]; intros f E; [now left|]. right.
  cbn [expand] in E. assert (X : exists g, In g (callees ts need f) /\ expand ts n need g = false).
  { destruct (existsb (fun g => negb (expand ts n need g)) (callees ts need f)) eqn:EX.
    - apply existsb_exists in EX as (g & HG & Q). exists g. split; [exact HG|now apply negb_true_iff].
    - exfalso. assert (Q : forallb (expand ts n need) (callees ts need f) = true); [|congruence].
      apply forallb_forall. intros g HG. destruct (expand ts n need g) eqn:EG; [reflexivity|].
      assert (Q : existsb (fun g0 => negb (expand ts n need g0)) (callees ts need f) = true); [|congruence].
      apply existsb_exists. exists g. split; [exact HG|now rewrite EG]. }
  destruct X as (g & HG & EG). apply callees_iff in HG. destruct (IH g EG) as [->|(h & k & <- & [->|H])].
  - exists f, 0. split; [reflexivity|now left].
  - exists g, 1. split; [reflexivity|]. right. now constructor.
  - exists h, (S k). split; [reflexivity|]. right. change (S k) with (1 + k). eapply chain_app; [constructor; exact HG|exact H].
Qed.
Lemma chain_path need f g k : chain ts need f g k -> exists l, length l = k /\ path need f (g :: l).
Proof.
  induction 1 as [g C|g h k H (l & L & P) C].
  - exists [f]. split; [reflexivity|]. econstructor; [constructor|exact C].
  - exists (g :: l). cbn [length]. split; [lia|]. now constructor.
Qed.
Lemma acyclic_expand need : (forall x, ~ recursive ts need x) -> forall f, exists n, expand ts n need f = true.
Proof.
  intros A f. exists (length ts + 3). destruct (expand ts (length ts + 3) need f) eqn:E; [reflexivity|]. exfalso.
  destruct (expand_chain need _ f E) as [X|(g & k & L & [->|H])]; [lia|lia|].
  destruct (chain_path need f g k H) as (l & LL & P).
  destruct (long_path need f (g :: l) P) as (x & j & _ & HC); [cbn [length]; lia|]. apply (A x). now exists j.
Qed.

(** ** The check of templates *)
Section C.
Variable order : list nat -> list nat.
Hypothesis O : isOrder order.
Hypothesis G : graded ts (initial ts).
Definition stOk (fuel : nat) (done : list templ) (s : st) : Prop :=
  (forall x, sNeed s x = true -> initial ts x = true) /\
  match sRec s with
  | None => forall t, In t done -> sNeed s (tFun t) = false
  | Some rs => (exists need0, (forall x, sNeed s x = true -> need0 x = true) /\ (forall x, need0 x = true -> initial ts x = true) /\
                   findRecursion ts order fuel need0 = Some rs) /\
               forall t, In t done -> sNeed s (tFun t) = true -> ~ In (tFun t) rs
  end.
Lemma disable_iff need f x : disable need f x = true <-> need x = true /\ x <> f.
Proof.
  unfold disable. destruct (x =? f) eqn:E; [apply Nat.eqb_eq in E|apply Nat.eqb_neq in E]; split; intro H.
  - discriminate.
  - now destruct H.
  - now split.
  - now destruct H.
Qed.
Lemma graded_fuel need0 : (forall x, need0 x = true -> initial ts x = true) -> exists rs, findRecursion ts order (length ts + 2) need0 = Some rs.
Proof.
  intro H. pose proof (graded_less _ _ H G) as G0. unfold findRecursion.
  assert (Q : forall l rs, exists rs', fold_left (visit ts order (length ts + 2) need0) l (Some rs) = Some rs').
  { induction l as [|t l IH]; intros rs; [now exists rs|]. cbn [fold_left visit]. destruct (mem (tFun t) rs); [apply IH|].
    pose proof (graded_finishes need0 order O (tFun t) G0) as F.
    destruct (search ts order (length ts + 2) need0 [tFun t] (callees ts need0 (tFun t))) as [[c|]|]; [apply IH|apply IH|now destruct F]. }
  apply Q.
Qed.
Lemma checkOne_ok done t s : In t ts -> stOk (length ts + 2) done s ->
  exists s', checkOne ts order (length ts + 2) (Some s) t = Some s' /\ stOk (length ts + 2) (done ++ [t]) s'.
Proof.
  intros HT (I1 & I2). cbn [checkOne]. destruct (sNeed s (tFun t)) eqn:EN; cbn [negb].
  - assert (D : forall x, disable (sNeed s) (tFun t) x = true -> sNeed s x = true) by (intros x HX; now apply disable_iff in HX).
    assert (DF : disable (sNeed s) (tFun t) (tFun t) = false) by (unfold disable; now rewrite Nat.eqb_refl).
    destruct (tBad t) eqn:EB.
    + eexists. split; [reflexivity|]. split; cbn [sNeed sRec]; [intros x HX; now apply I1, D|].
      destruct (sRec s) as [rs|].
      * destruct I2 as ((need0 & A & B & E) & C). split.
        -- exists need0. split; [intros x HX; now apply A, D|]. now split.
        -- intros t0 HI HN. apply in_app_or in HI as [HI|[<-|[]]]; [exact (C t0 HI (D _ HN))|congruence].
      * intros t0 HI. apply in_app_or in HI as [HI|[<-|[]]]; [|exact DF].
        destruct (disable (sNeed s) (tFun t) (tFun t0)) eqn:E0; [|reflexivity]. apply D in E0. rewrite (I2 t0 HI) in E0. discriminate.
    + assert (X : exists rs, (match sRec s with Some rs => Some rs | None => findRecursion ts order (length ts + 2) (sNeed s) end) = Some rs /\
        (exists need0, (forall x, sNeed s x = true -> need0 x = true) /\ (forall x, need0 x = true -> initial ts x = true) /\
                   findRecursion ts order (length ts + 2) need0 = Some rs) /\
               forall t, In t done -> sNeed s (tFun t) = true -> ~ In (tFun t) rs).
      { destruct (sRec s) as [rs|]; [exists rs; now split|]. destruct (graded_fuel (sNeed s) I1) as (rs & E). exists rs.
        split; [exact E|]. split; [exists (sNeed s); now repeat split|]. intros t0 HI HN. rewrite (I2 t0 HI) in HN. discriminate. }
      destruct X as (rs & -> & (need0 & A & B & E) & C). eexists. split; [reflexivity|].
      split; cbn [sNeed sRec].
      * intros x HX. apply I1. destruct (mem (tFun t) rs); [now apply D|exact HX].
      * split.
        -- exists need0. split; [|now split]. intros x HX. apply A. destruct (mem (tFun t) rs); [now apply D|exact HX].
        -- intros t0 HI HN. apply in_app_or in HI as [HI|[<-|[]]].
           ++ apply C; [exact HI|]. destruct (mem (tFun t) rs); [now apply D|exact HN].
           ++ destruct (mem (tFun t) rs) eqn:EM; [congruence|]. intro HX. apply mem_iff in HX. congruence.
  - exists s. split; [reflexivity|]. split; [exact I1|]. destruct (sRec s) as [rs|].
    + destruct I2 as (A & C). split; [exact A|]. intros t0 HI HN. apply in_app_or in HI as [HI|[<-|[]]]; [now apply C|congruence].
    + intros t0 HI. apply in_app_or in HI as [HI|[<-|[]]]; [now apply I2|exact EN].
Qed.
Lemma check_ok l : forall done s, incl l ts -> stOk (length ts + 2) done s ->
  exists s', fold_left (checkOne ts order (length ts + 2)) l (Some s) = Some s' /\ stOk (length ts + 2) (done ++ l) s'.
Proof.
  induction l as [|t l IH]; intros done s HI HS; [exists s; rewrite app_nil_r; now split|].
  destruct (checkOne_ok done t s (HI t (or_introl eq_refl)) HS) as (s1 & E1 & H1).
  destruct (IH (done ++ [t]) s1) as (s2 & E2 & H2); [intros x HX; apply HI; now right|exact H1|].
  exists s2. rewrite <- app_assoc in H2. split; [|exact H2]. cbn [fold_left]. now rewrite E1.
Qed.
Lemma check_expand : exists need, (exists n, checkTemplates ts order n = Some need) /\ forall f, exists n, expand ts n need f = true.
Proof.
  destruct (check_ok ts [] (St (initial ts) None)) as (s & E & H); [now intros x HX|split; [now intros x HX|intros t []]|].
  exists (sNeed s). split; [exists (length ts + 2); unfold checkTemplates; now rewrite E|].
  apply acyclic_expand. intros x (k & HC). cbn [app] in H. destruct H as (I1 & I2).
  assert (HX : In x (map tFun ts)) by (eapply chain_in; eassumption).
  assert (HN : sNeed s x = true) by (inversion HC as [? C|? ? ? ? C]; exact (proj2 C)).
  apply in_map_iff in HX as (t & <- & HT).
  destruct (sRec s) as [rs|].
  - destruct I2 as ((need0 & A & B & EF) & C). apply (C t HT HN).
    apply (proj2 (fold_exact need0 order O (length ts + 2) ts (graded_less _ _ B G) [] rs EF (fun f F => match F with end))).
    + now apply in_map.
    + exists k. eapply chain_less; eassumption.
  - rewrite (I2 t HT) in HN. discriminate.
Qed.
(** Functions without recursion which pass other checks are not disabled *)
Lemma check_kept n need : checkTemplates ts order n = Some need ->
  forall t, In t ts -> tNeed t = true -> tBad t = false -> ~ recursive ts (initial ts) (tFun t) -> need (tFun t) = true.
Proof.
  unfold checkTemplates. intros E t HT HN HB HR.
  assert (Q : forall l s s', incl l ts -> (forall x, sNeed s x = true -> initial ts x = true) -> sNeed s (tFun t) = true ->
    (forall rs, sRec s = Some rs -> ~ In (tFun t) rs) -> fold_left (checkOne ts order n) l (Some s) = Some s' -> sNeed s' (tFun t) = true).
  { clear E need. intro l. induction l as [|u l IH]; intros s s' HI HS HT1 HRS E; [injection E as <-; exact HT1|].
    assert (NO : forall m, fold_left (checkOne ts order n) m None = None) by (induction m as [|z m IHm]; [reflexivity|exact IHm]).
    assert (HU : In u ts) by (apply HI; now left).
    assert (SAME : tFun u = tFun t -> u = t).
    { intro EU. pose proof (find_templ ts u (proj1 W) HU) as F1. pose proof (find_templ ts t (proj1 W) HT) as F2. rewrite EU in F1. congruence. }
    assert (D : forall x, disable (sNeed s) (tFun u) x = true -> sNeed s x = true) by (intros x HX; now apply disable_iff in HX).
    cbn [fold_left checkOne] in E. destruct (sNeed s (tFun u)) eqn:EN; cbn [negb] in E.
    - destruct (tBad u) eqn:EB.
      + apply IH in E; cbn [sNeed sRec]; [exact E|intros x HX; apply HI; now right|intros x HX; now apply HS, D| |exact HRS].
        apply disable_iff. split; [exact HT1|]. intro EU. rewrite (SAME (eq_sym EU)) in EB. congruence.
      + destruct (match sRec s with Some rs => Some rs | None => findRecursion ts order n (sNeed s) end) as [rs|] eqn:ER; [|now rewrite NO in E].
        assert (NR : ~ In (tFun t) rs).
        { destruct (sRec s) as [rs0|] eqn:E0; [injection ER as <-; now apply HRS|]. intro HX. apply HR.
          destruct (proj1 (fold_exact (sNeed s) order O n ts (graded_less _ _ HS G) [] rs ER (fun f F => match F with end)) _ HX) as (k & HC).
          exists k. eapply chain_less; eassumption. }
        apply IH in E; cbn [sNeed sRec]; [exact E|intros x HX; apply HI; now right| | |].
        * intros x HX. apply HS. destruct (mem (tFun u) rs); [now apply D|exact HX].
        * destruct (mem (tFun u) rs) eqn:EM; [|exact HT1]. apply disable_iff. split; [exact HT1|]. intro EU. apply mem_iff in EM. rewrite <- EU in EM. now apply NR.
        * intros rs0 [= <-]. exact NR.
    - apply IH in E; [exact E|intros x HX; apply HI; now right|exact HS|exact HT1|exact HRS]. }
  destruct (fold_left _ ts _) as [s|] eqn:EF; [|discriminate]. injection E as <-.
  apply (Q ts (St (initial ts) None) s); [now intros x HX|now intros x HX| |intros rs [=]|exact EF].
  cbn [sNeed]. rewrite (initial_templ t HT). exact HN.
Qed.
End C.
End R.
