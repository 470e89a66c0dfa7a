(** Proofs about the search for pairs of expressions and instructions. *)
From Coq Require Import PeanoNat Bool List Lia Permutation.
From Verif Require Import MatchModel MatchSpec.
Import ListNotations.

Lemma upd_same {A} (M : loc -> option A) l q : upd M l q l = Some q.
Proof. unfold upd. now rewrite Nat.eqb_refl. Qed.
Lemma upd_other {A} (M : loc -> option A) l q l' : l <> l' -> upd M l q l' = M l'.
Proof. unfold upd. intro H. now rewrite (proj2 (Nat.eqb_neq l l') H). Qed.

(** emplace *)
Lemma emplace_In n i B p : In p (emplace n i B) -> In p B \/ p = (n, i).
Proof.
  unfold emplace. destruct (existsb _ B); [now left|]. intro H. apply in_app_or in H.
  destruct H as [H|[<-|[]]]; auto.
Qed.
Lemma emplace_keep n i B p : In p B -> In p (emplace n i B).
Proof. unfold emplace. destruct (existsb _ B); [auto|]. intro. apply in_or_app. now left. Qed.
Lemma emplace_fresh n i B : ~ In n (map fst B) -> ~ In i (map snd B) -> emplace n i B = B ++ [(n, i)].
Proof.
  intros H1 H2. unfold emplace. destruct (existsb _ B) eqn:E; [exfalso|reflexivity].
  apply existsb_exists in E. destruct E as (p & IP & E). apply orb_true_iff in E.
  destruct E as [E|E]; apply Nat.eqb_eq in E; [apply H1|apply H2]; rewrite <- E; now apply in_map.
Qed.
Lemma NoDup_snoc {A} (l : list A) x : NoDup l -> ~ In x l -> NoDup (l ++ [x]).
Proof.
  intros N H. apply NoDup_rev in N. rewrite <- (rev_involutive (l ++ [x])), rev_app_distr.
  apply NoDup_rev. cbn. constructor; [now rewrite <- in_rev|exact N].
Qed.
Lemma emplace_NoDup n i B : NoDup (map fst B) -> NoDup (map snd B) ->
  NoDup (map fst (emplace n i B)) /\ NoDup (map snd (emplace n i B)).
Proof.
  intros H1 H2. unfold emplace. destruct (existsb _ B) eqn:E; [auto|].
  rewrite !map_app. cbn [map fst snd].
  assert (K : forall p, In p B -> fst p <> n /\ snd p <> i).
  { intros p IP. split; intro Q;
      (assert (X : existsb (fun p => Nat.eqb (fst p) n || Nat.eqb (snd p) i) B = true);
       [apply existsb_exists; exists p; split; [exact IP|]|congruence]);
      apply orb_true_iff; [left|right]; now apply Nat.eqb_eq. }
  split; apply NoDup_snoc; auto; intro Q; apply in_map_iff in Q; destruct Q as (p & Q & IP);
    destruct (K p IP); auto.
Qed.

(** The map of instructions. *)
Lemma collect_at is : forall M l,
  match collect is M l with
  | Some q => (qItems q = match M l with Some q0 => qItems q0 | None => [] end ++ instrsAt is l) /\
              (M l = None -> instrsAt is l <> [])
  | None => M l = None /\ instrsAt is l = []
  end.
Proof.
  induction is as [|[i [l0|]] is IH]; intros M l; cbn [collect].
  - change (instrsAt [] l) with (@nil nat). destruct (M l) as [q|]; [|auto].
    rewrite app_nil_r. split; [reflexivity|discriminate].
  - specialize (IH (upd M l0 (push (match M l0 with Some q => q | None => Queue false [] end) i)) l).
    unfold instrsAt in *. cbn [filter snd]. destruct (Nat.eqb_spec l0 l) as [->|N].
    + rewrite upd_same in IH. cbn [map fst].
      destruct (collect is _ l) as [q|]; [|destruct IH as [IH _]; discriminate IH].
      destruct IH as [IH _]. rewrite IH. split; [|discriminate].
      destruct (M l) as [q0|]; cbn [push qItems]; now rewrite <- app_assoc.
    + rewrite upd_other in IH by exact N. exact IH.
  - specialize (IH M l). unfold instrsAt in *. cbn [filter snd]. exact IH.
Qed.
Definition start (is : list instruction) : irMap := reverseAll (collect is (fun _ => None)).
Lemma start_at is l :
  match start is l with
  | Some q => qItems q = rev (instrsAt is l) /\ instrsAt is l <> []
  | None => instrsAt is l = []
  end.
Proof.
  pose proof (collect_at is (fun _ => None) l) as H. unfold start, reverseAll.
  destruct (collect is _ l) as [q|].
  - destruct H as [H1 H2]. cbn [qItems]. cbn [app] in H1. rewrite H1. auto.
  - apply H.
Qed.
Lemma instrsAt_In is l i : In i (instrsAt is l) <-> In (i, Some l) is.
Proof.
  unfold instrsAt. rewrite in_map_iff. split.
  - intros ([j o] & E & H). cbn in E. subst j. apply filter_In in H. destruct H as [H E].
    cbn in E. destruct o as [l'|]; [|discriminate]. apply Nat.eqb_eq in E. now subst.
  - intro H. exists (i, Some l). split; [reflexivity|]. apply filter_In. split; [exact H|].
    cbn. apply Nat.eqb_refl.
Qed.
Lemma instrsAt_NoDup is l : NoDup (map fst is) -> NoDup (instrsAt is l).
Proof.
  unfold instrsAt. induction is as [|[i o] is IH]; cbn [map fst filter snd]; intro N; [exact N|].
  inversion N as [|? ? NI N']; subst.
  destruct o as [l'|]; [|now apply IH]. destruct (Nat.eqb l' l); [|now apply IH].
  cbn [map fst]. constructor; [|now apply IH]. intro Q. apply NI. apply in_map_iff in Q.
  destruct Q as (p & E & Q). apply filter_In in Q. rewrite <- E. apply in_map. tauto.
Qed.

(** addMacro *)
Lemma addMacro_In r n B r' ns' : In (r', ns') (addMacro r n B) ->
  In (r', ns') B \/ (r' = r /\ (ns' = [n] \/ exists ns, In (r, ns) B /\ ns' = ns ++ [n])).
Proof.
  induction B as [|[r0 ns0] B IH]; cbn [addMacro].
  - intros [E|[]]. injection E as <- <-. auto.
  - destruct (Nat.eqb_spec r r0) as [->|N]; intros [E|H].
    + injection E as <- <-. right. split; [reflexivity|]. right. exists ns0. split; [now left|reflexivity].
    + left. now right.
    + left. now left.
    + destruct (IH H) as [Q|(E & [Q|(ns & Q & E')])]; auto.
      * left. now right.
      * right. split; [exact E|]. right. exists ns. split; [now right|exact E'].
Qed.
Lemma addMacro_keys r n B : NoDup (map fst B) -> NoDup (map fst (addMacro r n B)).
Proof.
  induction B as [|[r0 ns0] B IH]; cbn [addMacro]; intro N.
  - repeat constructor. auto.
  - destruct (Nat.eqb_spec r r0) as [->|NE]; [exact N|]. cbn [map fst] in *.
    inversion N as [|? ? NI N']; subst. constructor; [|now apply IH]. intro Q.
    apply in_map_iff in Q. destruct Q as ([r1 ns1] & E & Q). cbn in E. subst r1.
    destruct (addMacro_In _ _ _ _ _ Q) as [H|(-> & _)]; [|congruence].
    apply NI. apply in_map_iff. exists (r0, ns1). auto.
Qed.
Lemma addMacro_at r n B : exists ns, In (r, ns ++ [n]) (addMacro r n B) /\
  (In (r, ns) B \/ (ns = [] /\ ~ In r (map fst B))).
Proof.
  induction B as [|[r0 ns0] B IH]; cbn [addMacro].
  - exists []. split; [now left|right; auto].
  - destruct (Nat.eqb_spec r r0) as [->|N].
    + exists ns0. split; [now left|left; now left].
    + destruct IH as (ns & H1 & H2). exists ns. split; [now right|].
      destruct H2 as [H2|[H2 H3]]; [left; now right|right]. split; [exact H2|].
      cbn [map fst]. intros [Q|Q]; [congruence|auto].
Qed.
Lemma addMacro_other r n B r' ns : r' <> r -> (In (r', ns) (addMacro r n B) <-> In (r', ns) B).
Proof.
  intro N. induction B as [|[r0 ns0] B IH]; cbn [addMacro].
  - split; [intros [E|[]]; congruence|intros []].
  - destruct (Nat.eqb_spec r r0) as [->|NE]; cbn [In]; [|rewrite IH; reflexivity].
    split; (intros [E|H]; [congruence|now right]).
Qed.

Lemma pairUp_In ns : forall is B p, In p (pairUp ns is B) ->
  In p B \/ (In (fst p) ns /\ In (snd p) is).
Proof.
  induction ns as [|n ns IH]; intros is B p H; cbn [pairUp] in H; [now left|].
  destruct is as [|i is]; [now left|]. destruct (IH _ _ _ H) as [Q|[Q1 Q2]].
  - destruct (emplace_In _ _ _ _ Q) as [Q'| ->]; [now left|right; cbn; auto].
  - right. split; now right.
Qed.
Lemma pairUp_keep ns : forall is B p, In p B -> In p (pairUp ns is B).
Proof.
  induction ns as [|n ns IH]; intros is B p H; cbn [pairUp]; [exact H|].
  destruct is as [|i is]; [exact H|]. apply IH. now apply emplace_keep.
Qed.
Lemma pairUp_NoDup ns : forall is B, NoDup (map fst B) -> NoDup (map snd B) ->
  NoDup (map fst (pairUp ns is B)) /\ NoDup (map snd (pairUp ns is B)).
Proof.
  induction ns as [|n ns IH]; intros is B H1 H2; cbn [pairUp]; [auto|].
  destruct is as [|i is]; [auto|]. destruct (emplace_NoDup n i B H1 H2). now apply IH.
Qed.
Lemma pairUp_fresh ns : forall is B, NoDup ns -> NoDup is -> length ns = length is ->
  (forall n, In n ns -> ~ In n (map fst B)) -> (forall i, In i is -> ~ In i (map snd B)) ->
  pairUp ns is B = B ++ combine ns is.
Proof.
  induction ns as [|n ns IH]; intros is B N1 N2 L H1 H2; cbn [pairUp].
  - destruct is; [|discriminate]. cbn. now rewrite app_nil_r.
  - destruct is as [|i is]; [discriminate|]. inversion N1; subst. inversion N2; subst.
    rewrite emplace_fresh by (first [apply H1|apply H2]; now left).
    rewrite IH; auto.
    + cbn [combine]. now rewrite <- app_assoc.
    + intros n' Q. rewrite map_app, in_app_iff. cbn. intros [X|[<-|[]]]; [|tauto].
      exact (H1 n' (or_intror Q) X).
    + intros i' Q. rewrite map_app, in_app_iff. cbn. intros [X|[<-|[]]]; [|tauto].
      exact (H2 i' (or_intror Q) X).
Qed.

Section Pairs.
Variables (presumed : loc -> loc) (is : list instruction) (ts : list item).
Definition placeOf (t : item) : loc := if tMacro t then presumed (tLoc t) else tLoc t.
Record inv (s : state) : Prop := Inv {
  v_fst : NoDup (map fst (sMatch s));
  v_snd : NoDup (map snd (sMatch s));
  v_match : forall n i, In (n, i) (sMatch s) ->
    exists t, In t ts /\ tNode t = n /\ In (i, Some (placeOf t)) is;
  v_map : forall l q i, sMap s l = Some q -> In i (qItems q) -> In (i, Some l) is;
  v_macro : forall r ns n, In (r, ns) (sMacro s) -> In n ns ->
    exists t, In t ts /\ tMacro t = true /\ tLoc t = r /\ tNode t = n
}.
Lemma inv_start : inv (State (start is) [] [] []).
Proof.
  constructor; cbn [sMatch sMap sMacro map]; try constructor; try (intros; contradiction).
  intros l q i E IQ. pose proof (start_at is l) as H. rewrite E in H. destruct H as [H _].
  rewrite H in IQ. apply instrsAt_In. now apply in_rev.
Qed.
Lemma findIR_ok asserts M l o M' : findIRForLocation asserts M l = Done (o, M') ->
  (forall l' q i, M l' = Some q -> In i (qItems q) -> In (i, Some l') is) ->
  (forall i, o = Some i -> In (i, Some l) is) /\
  (forall l' q i, M' l' = Some q -> In i (qItems q) -> In (i, Some l') is).
Proof.
  intros H V. unfold findIRForLocation in H. destruct (M l) as [q|] eqn:E.
  - destruct (rev (qItems q)) as [|x r] eqn:R.
    + destruct (asserts || qVec q); [discriminate|]. injection H as <- <-. split; [discriminate|auto].
    + injection H as <- <-. assert (K : forall j, In j (x :: r) -> In (j, Some l) is).
      { intros j J. apply (V l q j E). apply in_rev. now rewrite R. }
      split.
      * intros i [= <-]. apply K. now left.
      * intros l' q' i E' IQ. destruct (Nat.eq_dec l l') as [<-|N].
        -- rewrite upd_same in E'. injection E' as <-. cbn [qItems] in IQ. apply in_rev in IQ.
           apply K. now right.
        -- rewrite upd_other in E' by exact N. exact (V l' q' i E' IQ).
  - injection H as <- <-. split; [discriminate|auto].
Qed.
Lemma visitItem_inv asserts t s s' : In t ts -> inv s -> visitItem asserts t s = Done s' -> inv s'.
Proof.
  intros IT [V1 V2 V3 V4 V5] H. unfold visitItem in H. destruct (tMacro t) eqn:TM.
  - injection H as <-. constructor; cbn [sMatch sMap sMacro]; auto.
    intros r ns n IN NN. destruct (addMacro_In _ _ _ _ _ IN) as [Q|(-> & [-> |(ns0 & Q & ->)])].
    + exact (V5 r ns n Q NN).
    + destruct NN as [<-|[]]. exists t. auto.
    + apply in_app_or in NN. destruct NN as [NN|[<-|[]]]; [exact (V5 _ _ _ Q NN)|]. exists t. auto.
  - destruct (findIRForLocation asserts (sMap s) (tLoc t)) as [|[o M']] eqn:F; [discriminate|].
    destruct (findIR_ok _ _ _ _ _ F V4) as [F1 F2].
    destruct o as [i|]; injection H as <-; constructor; cbn [sMatch sMap sMacro]; auto.
    + apply (emplace_NoDup _ _ _ V1 V2).
    + apply (emplace_NoDup _ _ _ V1 V2).
    + intros n j IN. destruct (emplace_In _ _ _ _ IN) as [Q|Q]; [exact (V3 n j Q)|].
      injection Q as -> ->. exists t. unfold placeOf. rewrite TM. auto.
Qed.
Lemma visitItems_inv asserts us : forall s s', incl us ts -> inv s ->
  visitItems asserts us s = Done s' -> inv s'.
Proof.
  induction us as [|t us IH]; intros s s' IN K H; cbn [visitItems] in H.
  - now injection H as <-.
  - destruct (visitItem asserts t s) as [|s1] eqn:E; [discriminate|].
    apply (IH s1 s'); auto.
    + intros u U. apply IN. now right.
    + apply (visitItem_inv asserts t s); auto. apply IN. now left.
Qed.
Lemma matchOne_inv strict m s : inv s ->
  (forall n, In n (snd m) -> exists t, In t ts /\ tMacro t = true /\ tLoc t = fst m /\ tNode t = n) ->
  inv (matchOne strict presumed m s).
Proof.
  intros [V1 V2 V3 V4 V5] MM. unfold matchOne.
  destruct (sMap s (presumed (fst m))) as [q|] eqn:E; [|constructor; auto].
  destruct (_ || _); constructor; cbn [sMatch sMap sMacro]; auto.
  - apply (pairUp_NoDup _ _ _ V1 V2).
  - apply (pairUp_NoDup _ _ _ V1 V2).
  - intros n i IN. destruct (pairUp_In _ _ _ _ IN) as [Q|[Q1 Q2]]; [exact (V3 n i Q)|].
    cbn [fst snd] in Q1, Q2. apply in_rev in Q1, Q2. destruct (MM n Q1) as (t & T1 & T2 & T3 & T4).
    exists t. split; [exact T1|]. split; [exact T4|]. unfold placeOf. rewrite T2, T3.
    exact (V4 _ _ _ E Q2).
  - intros l q' i E' IQ. destruct (Nat.eq_dec (presumed (fst m)) l) as [<-|N].
    + rewrite upd_same in E'. injection E' as <-. destruct IQ.
    + rewrite upd_other in E' by exact N. exact (V4 l q' i E' IQ).
Qed.
Lemma matchInMacro_inv strict ms : forall s, inv s ->
  (forall m, In m ms -> forall n, In n (snd m) ->
     exists t, In t ts /\ tMacro t = true /\ tLoc t = fst m /\ tNode t = n) ->
  inv (matchInMacro strict presumed ms s).
Proof.
  unfold matchInMacro. induction ms as [|m ms IH]; intros s K MM; cbn [fold_left]; [exact K|].
  apply IH; [apply matchOne_inv|]; auto.
  - apply MM. now left.
  - intros m' M'. apply MM. now right.
Qed.
Lemma macros_inv order (revMacro : bool) s : inv s -> someOrder order ->
  forall m, In m (if revMacro then map (fun m => (fst m, rev (snd m))) (order (sMacro s))
                  else order (sMacro s)) ->
  forall n, In n (snd m) -> exists t, In t ts /\ tMacro t = true /\ tLoc t = fst m /\ tNode t = n.
Proof.
  intros K O m IM n NN.
  assert (X : exists ns, In (fst m, ns) (sMacro s) /\ In n ns).
  { destruct revMacro.
    - apply in_map_iff in IM. destruct IM as ([r ns] & <- & IM). cbn [fst snd] in *.
      exists ns. split; [|now apply in_rev]. now apply (Permutation_in _ (O (sMacro s))).
    - exists (snd m). split; [|exact NN]. rewrite <- surjective_pairing.
      now apply (Permutation_in _ (O (sMacro s))). }
  destruct X as (ns & X1 & X2). exact (v_macro s K _ _ _ X1 X2).
Qed.
End Pairs.

Lemma pairs_ok : C79_pairs_claim.
Proof.
  intros asserts strict revMacro presumed order is ts s O H. unfold run in H.
  destruct (visitItems asserts ts _) as [|s1] eqn:E; [discriminate|]. injection H as <-.
  assert (K1 : inv presumed is ts s1).
  { apply (visitItems_inv presumed is ts asserts ts _ _ (incl_refl _) (inv_start presumed is ts) E). }
  destruct (matchInMacro_inv presumed is ts strict _ s1 K1
    (macros_inv presumed is ts order revMacro s1 K1 O)) as [V1 V2 V3 _ _].
  split; [exact V1|]. split; [exact V2|]. exact V3.
Qed.

(** Macros. *)
Lemma nodesAt_In ts r n : In n (nodesAt ts r) <->
  exists t, In t ts /\ tMacro t = true /\ tLoc t = r /\ tNode t = n.
Proof.
  unfold nodesAt. rewrite in_map_iff. split.
  - intros (t & E & H). apply filter_In in H. destruct H as [H C]. apply andb_true_iff in C.
    destruct C as [C1 C2]. apply Nat.eqb_eq in C2. exists t. auto.
  - intros (t & H & C1 & C2 & E). exists t. split; [exact E|]. apply filter_In. split; [exact H|].
    rewrite C1, C2. apply Nat.eqb_refl.
Qed.
Lemma nodesAt_app ts us r : nodesAt (ts ++ us) r = nodesAt ts r ++ nodesAt us r.
Proof. unfold nodesAt. now rewrite filter_app, map_app. Qed.
Lemma nodesAt_NoDup ts r : NoDup (map tNode ts) -> NoDup (nodesAt ts r).
Proof.
  unfold nodesAt. induction ts as [|t ts IH]; cbn [map filter]; intro N; [exact N|].
  inversion N as [|? ? NI N']; subst. destruct (_ && _); [|now apply IH]. cbn [map].
  constructor; [|now apply IH]. intro Q. apply NI. apply in_map_iff in Q.
  destruct Q as (u & E & Q). apply filter_In in Q. rewrite <- E. apply in_map. tauto.
Qed.
Lemma node_unique ts t u : NoDup (map tNode ts) -> In t ts -> In u ts -> tNode t = tNode u -> t = u.
Proof.
  induction ts as [|x ts IH]; cbn [map In]; intros N IT IU E; [contradiction|].
  inversion N as [|? ? NI N']; subst.
  destruct IT as [->|IT], IU as [->|IU]; auto.
  - exfalso. apply NI. rewrite E. now apply in_map.
  - exfalso. apply NI. rewrite <- E. now apply in_map.
Qed.
Lemma id_unique (is : list instruction) i o o' : NoDup (map fst is) ->
  In (i, o) is -> In (i, o') is -> o = o'.
Proof.
  induction is as [|[j p] is IH]; cbn [map In fst]; intros N H H'; [contradiction|].
  inversion N as [|? ? NI N']; subst.
  destruct H as [E|H], H' as [E'|H']; auto.
  - congruence.
  - exfalso. apply NI. injection E as <- <-. now apply (in_map fst) in H'.
  - exfalso. apply NI. injection E' as <- <-. now apply (in_map fst) in H.
Qed.

Section Macro.
Variables (asserts strict : bool) (presumed : loc -> loc) (is : list instruction) (ts : list item)
  (r : loc).
Hypothesis ND : NoDup (map tNode ts).
Hypothesis NI : NoDup (map fst is).
Hypothesis own : forall t, In t ts -> tMacro t = true -> presumed (tLoc t) = presumed r -> tLoc t = r.
Hypothesis alone : forall t, In t ts -> tMacro t = false -> tLoc t <> presumed r.
Let ns := nodesAt ts r.
Let xs := instrsAt is (presumed r).

Record inv1 (pre : list item) (s : state) : Prop := Inv1 {
  w_map : sMap s (presumed r) = start is (presumed r);
  w_keys : NoDup (map fst (sMacro s));
  w_macro : forall ns', In (r, ns') (sMacro s) <-> ns' = nodesAt pre r /\ nodesAt pre r <> [];
  w_from : forall r' ns', In (r', ns') (sMacro s) ->
    exists t, In t pre /\ tMacro t = true /\ tLoc t = r';
  w_match : forall n i, In (n, i) (sMatch s) -> exists t, In t pre /\ tMacro t = false /\ tNode t = n
}.
Lemma findIR_other M l o M' l' : findIRForLocation asserts M l = Done (o, M') -> l <> l' ->
  M' l' = M l'.
Proof.
  intros H N. unfold findIRForLocation in H. destruct (M l) as [q|].
  - destruct (rev (qItems q)).
    + destruct (asserts || qVec q); [discriminate|]. now injection H as <- <-.
    + injection H as <- <-. now apply upd_other.
  - now injection H as <- <-.
Qed.
Lemma visitItem_inv1 pre t s s' : In t ts -> inv1 pre s -> visitItem asserts t s = Done s' ->
  inv1 (pre ++ [t]) s'.
Proof.
  intros IT [W1 W2 W3 W4 W5] H. unfold visitItem in H.
  assert (NA : nodesAt (pre ++ [t]) r = nodesAt pre r ++
                 (if tMacro t && Nat.eqb (tLoc t) r then [tNode t] else [])).
  { rewrite nodesAt_app. unfold nodesAt at 2. cbn [filter]. now destruct (_ && _). }
  assert (K : forall P : item -> Prop, (exists t, In t pre /\ P t) -> exists u, In u (pre ++ [t]) /\ P u).
  { intros P (u & U & Q). exists u. split; [apply in_or_app; now left|exact Q]. }
  destruct (tMacro t) eqn:TM.
  - injection H as <-. constructor; cbn [sMap sMatch sMacro].
    + exact W1.
    + now apply addMacro_keys.
    + intro ns'. rewrite NA. cbn [andb]. destruct (Nat.eqb_spec (tLoc t) r) as [E|N].
      * rewrite E. destruct (addMacro_at r (tNode t) (sMacro s)) as (ns0 & A1 & A2).
        assert (E0 : ns0 = nodesAt pre r).
        { destruct A2 as [A2|[-> A2]]; [now apply W3|].
          destruct (nodesAt pre r) eqn:Q; [reflexivity|exfalso]. apply A2.
          apply in_map_iff. exists (r, nodesAt pre r). split; [reflexivity|].
          apply W3. rewrite Q. split; [reflexivity|discriminate]. }
        subst ns0. split.
        -- intro IN. split; [|intro Q; now apply app_eq_nil in Q as [_ Q]].
           pose proof (addMacro_keys r (tNode t) _ W2) as ND'.
           clear -IN A1 ND'. induction (addMacro r (tNode t) (sMacro s)) as [|[a b] B IH]; [destruct IN|].
           cbn [map fst] in ND'. inversion ND' as [|? ? N1 N2]; subst.
           destruct IN as [IN|IN], A1 as [A1|A1]; auto.
           ++ congruence.
           ++ exfalso. apply N1. injection IN as -> _. now apply (in_map fst) in A1.
           ++ exfalso. apply N1. injection A1 as -> _. now apply (in_map fst) in IN.
        -- intros [-> _]. exact A1.
      * rewrite addMacro_other by congruence. rewrite app_nil_r. apply W3.
    + intros r' ns' IN. destruct (addMacro_In _ _ _ _ _ IN) as [Q|(-> & _)].
      * apply K. exact (W4 r' ns' Q).
      * exists t. split; [apply in_or_app; right; now left|auto].
    + intros n i IN. apply K. exact (W5 n i IN).
  - cbn [andb] in NA. rewrite app_nil_r in NA.
    destruct (findIRForLocation asserts (sMap s) (tLoc t)) as [|[o M']] eqn:F; [discriminate|].
    pose proof (findIR_other _ _ _ _ _ F (alone t IT TM)) as FM.
    destruct o as [i|]; injection H as <-; constructor; cbn [sMap sMatch sMacro]; rewrite ?NA; auto.
    + congruence.
    + intros r' ns' IN. apply K. exact (W4 r' ns' IN).
    + intros n j IN. destruct (emplace_In _ _ _ _ IN) as [Q|Q].
      * apply K. exact (W5 n j Q).
      * injection Q as -> ->. exists t. split; [apply in_or_app; right; now left|auto].
    + congruence.
    + intros r' ns' IN. apply K. exact (W4 r' ns' IN).
    + intros n j IN. apply K. exact (W5 n j IN).
Qed.
Lemma visitItems_inv1 us : forall pre s s', incl us ts -> inv1 pre s ->
  visitItems asserts us s = Done s' -> inv1 (pre ++ us) s'.
Proof.
  induction us as [|t us IH]; intros pre s s' IN K H; cbn [visitItems] in H.
  - injection H as <-. now rewrite app_nil_r.
  - destruct (visitItem asserts t s) as [|s1] eqn:E; [discriminate|].
    assert (K1 : inv1 (pre ++ [t]) s1) by (apply (visitItem_inv1 pre t s); auto; apply IN; now left).
    specialize (IH (pre ++ [t]) s1 s' (fun u U => IN u (or_intror U)) K1 H).
    now rewrite <- app_assoc in IH.
Qed.
Lemma inv1_start : inv1 [] (State (start is) [] [] []).
Proof.
  constructor; cbn [sMap sMatch sMacro map]; auto; try constructor; try contradiction.
  intros [_ H]. now apply H.
Qed.

(* nodes of other expansions *)
Definition foreign (m : loc * list nat) : Prop :=
  fst m <> r /\ (exists t, In t ts /\ tMacro t = true /\ tLoc t = fst m) /\
  forall n, In n (snd m) -> exists t, In t ts /\ tMacro t = true /\ tLoc t = fst m /\ tNode t = n.
Lemma foreign_nodes m n : foreign m -> In n (snd m) -> ~ In n ns.
Proof.
  intros (F1 & _ & F2) IN Q. destruct (F2 n IN) as (t & T1 & T2 & T3 & T4).
  apply nodesAt_In in Q. destruct Q as (u & U1 & U2 & U3 & U4).
  assert (t = u) by (apply (node_unique ts); congruence). congruence.
Qed.
Lemma matchOne_foreign m s : foreign m ->
  sMap (matchOne strict presumed m s) (presumed r) = sMap s (presumed r) /\
  forall n i, In n ns -> (In (n, i) (sMatch (matchOne strict presumed m s)) <-> In (n, i) (sMatch s)).
Proof.
  intro F. unfold matchOne. destruct (sMap s (presumed (fst m))) as [q|]; [|split; [auto|tauto]].
  destruct (_ || _); cbn [sMap sMatch]; [split; [auto|tauto]|]. split.
  - apply upd_other. intro E. destruct F as (F1 & (t & T1 & T2 & T3) & _). apply F1. rewrite <- T3.
    apply own; auto. now rewrite T3.
  - intros n i IN. split; [|apply pairUp_keep]. intro H.
    destruct (pairUp_In _ _ _ _ H) as [Q|[Q _]]; [exact Q|exfalso]. cbn [fst] in Q.
    apply in_rev in Q. exact (foreign_nodes m n F Q IN).
Qed.
Lemma matchInMacro_foreign ms : forall s, (forall m, In m ms -> foreign m) ->
  sMap (matchInMacro strict presumed ms s) (presumed r) = sMap s (presumed r) /\
  forall n i, In n ns ->
    (In (n, i) (sMatch (matchInMacro strict presumed ms s)) <-> In (n, i) (sMatch s)).
Proof.
  unfold matchInMacro. induction ms as [|m ms IH]; intros s F; cbn [fold_left]; [split; [auto|tauto]|].
  destruct (matchOne_foreign m s (F m (or_introl eq_refl))) as [F1 F2].
  destruct (IH (matchOne strict presumed m s) (fun m' M' => F m' (or_intror M'))) as [I1 I2].
  split; [congruence|]. intros n i IN. now rewrite I2, F2 by exact IN.
Qed.

(* instructions of the location are not paired with other nodes *)
Lemma free_instr s n i : inv presumed is ts s -> In (n, i) (sMatch s) -> ~ In n ns -> ~ In i xs.
Proof.
  intros K IN NN Q. destruct (v_match _ _ _ s K n i IN) as (t & T1 & T2 & T3).
  apply instrsAt_In in Q. pose proof (id_unique _ _ _ _ NI T3 Q) as E. injection E as E.
  unfold placeOf in E. destruct (tMacro t) eqn:TM.
  - apply NN. apply nodesAt_In. exists t. repeat split; auto.
  - exact (alone t T1 TM E).
Qed.

Definition expected (n i : nat) : Prop :=
  length ns = length xs /\ (strict = true -> length ns = 1) /\
  exists k, nth_error ns k = Some n /\ nth_error xs k = Some i.
Lemma combine_nth (l1 : list nat) : forall (l2 : list nat) a b,
  In (a, b) (combine l1 l2) <-> exists k, nth_error l1 k = Some a /\ nth_error l2 k = Some b.
Proof.
  induction l1 as [|x l1 IH]; intros l2 a b; cbn [combine].
  - split; [intros []|]. intros (k & E & _). destruct k; discriminate E.
  - destruct l2 as [|y l2].
    + split; [intros []|]. intros (k & _ & E). destruct k; discriminate E.
    + cbn [In]. rewrite IH. split.
      * intros [E|(k & E1 & E2)]; [injection E as -> ->; now exists 0|now exists (S k)].
      * intros ([|k] & E1 & E2); [left; cbn in E1, E2; congruence|right; now exists k].
Qed.
Lemma matchOne_own s n i : inv presumed is ts s -> sMap s (presumed r) = start is (presumed r) ->
  (forall n' i', In (n', i') (sMatch s) -> ~ In n' ns) ->
  In n ns ->
  (In (n, i) (sMatch (matchOne strict presumed (r, if negb strict then rev ns else ns) s))
   <-> expected n i).
Proof.
  intros K M FR IN. unfold matchOne. cbn [fst snd]. rewrite M.
  assert (LN : length (if negb strict then rev ns else ns) = length ns).
  { destruct strict; cbn [negb]; [reflexivity|apply rev_length]. }
  pose proof (start_at is (presumed r)) as ST. fold xs in ST. unfold expected.
  assert (NN : ns <> []) by (intro Q; rewrite Q in IN; destruct IN).
  destruct (start is (presumed r)) as [q|].
  - destruct ST as [ST1 ST2]. rewrite LN, ST1, rev_length.
    destruct (Nat.eqb_spec (length xs) (length ns)) as [E|N]; cbn [negb orb].
    + destruct (strict && (1 <? length ns)) eqn:C; cbn [sMatch].
      * split; [intro Q; exfalso; exact (FR n i Q IN)|].
        intros (_ & Q & _). apply andb_true_iff in C. destruct C as [C1 C2].
        apply Nat.ltb_lt in C2. specialize (Q C1). lia.
      * assert (RE : rev (if negb strict then rev ns else ns) = ns).
        { destruct strict; cbn [negb]; [|apply rev_involutive]. cbn [andb] in C.
          apply Nat.ltb_ge in C. destruct ns as [|a [|b l]]; try reflexivity. cbn in C. lia. }
        rewrite RE, rev_involutive, pairUp_fresh.
        -- rewrite in_app_iff, combine_nth. split.
           ++ intros [Q|Q]; [exfalso; exact (FR n i Q IN)|]. split; [auto|]. split; [|exact Q].
              intro S. rewrite S in C. cbn [andb] in C. apply Nat.ltb_ge in C.
              destruct ns as [|a l]; [congruence|]. cbn in C |- *. lia.
           ++ intros (_ & _ & Q). now right.
        -- apply nodesAt_NoDup. exact ND.
        -- apply instrsAt_NoDup. exact NI.
        -- now symmetry.
        -- intros n' N' Q. apply in_map_iff in Q. destruct Q as ([a b] & E' & Q). cbn in E'. subst a.
           exact (FR n' b Q N').
        -- intros i' X' Q. apply in_map_iff in Q. destruct Q as ([a b] & E' & Q). cbn in E'. subst b.
           exact (free_instr s a i' K Q (FR a i' Q) X').
    + cbn [sMatch]. split; [intro Q; exfalso; exact (FR n i Q IN)|]. intros (Q & _). congruence.
  - cbn [sMatch]. split; [intro Q; exfalso; exact (FR n i Q IN)|]. intros (Q & _). rewrite ST in Q.
    destruct ns; [congruence|discriminate].
Qed.
End Macro.

Lemma macro_ok : C79_macro_claim.
Proof.
  intros asserts strict presumed order is ts s r O H ND NI own alone ns xs n IN i. unfold run in H.
  destruct (visitItems asserts ts _) as [|s1] eqn:E; [discriminate|]. injection H as <-.
  assert (K1 : inv presumed is ts s1).
  { apply (visitItems_inv presumed is ts asserts ts _ _ (incl_refl _) (inv_start presumed is ts) E). }
  pose proof (visitItems_inv1 asserts presumed is ts r alone ts [] _ _ (incl_refl _)
    (inv1_start presumed is r) E) as W. cbn [app] in W. destruct W as [W1 W2 W3 W4 W5].
  set (f := fun m : loc * list nat => if negb strict then (fst m, rev (snd m)) else m).
  assert (EM : (if negb strict then map (fun m => (fst m, rev (snd m))) (order (sMacro s1))
                else order (sMacro s1)) = map f (order (sMacro s1))).
  { unfold f. destruct (negb strict); [reflexivity|]. symmetry. apply map_id. }
  rewrite EM. clear EM.
  assert (IR : In (r, ns) (order (sMacro s1))).
  { apply (Permutation_in _ (Permutation_sym (O (sMacro s1)))). apply W3. split; [reflexivity|].
    fold ns. intro Q. rewrite Q in IN. destruct IN. }
  assert (KO : NoDup (map fst (order (sMacro s1)))).
  { apply (Permutation_NoDup (l := map fst (sMacro s1))); [|exact W2].
    apply Permutation_map. symmetry. apply O. }
  assert (FO : forall m, In m (order (sMacro s1)) -> fst m <> r -> foreign ts r (f m)).
  { intros m IM NR. apply (Permutation_in _ (O (sMacro s1))) in IM. destruct m as [r' ns'].
    cbn [fst] in NR. assert (FF : fst (f (r', ns')) = r') by (unfold f; now destruct (negb strict)).
    unfold foreign. rewrite FF. split; [exact NR|]. split; [exact (W4 r' ns' IM)|].
    intros n' N'. apply (v_macro _ _ _ s1 K1 r' ns'); [exact IM|].
    unfold f in N'. destruct (negb strict); [now apply in_rev|exact N']. }
  apply in_split in IR. destruct IR as (m1 & m2 & EO). rewrite EO in KO, FO |- *.
  rewrite map_app. cbn [map]. unfold matchInMacro. rewrite fold_left_app. cbn [fold_left].
  rewrite map_app in KO. cbn [map fst] in KO. apply NoDup_remove_2 in KO.
  assert (F1 : forall m, In m (map f m1) -> foreign ts r m).
  { intros m IM. apply in_map_iff in IM. destruct IM as (m0 & <- & IM). apply FO.
    - apply in_or_app. now left.
    - intro Q. apply KO. apply in_or_app. left. rewrite <- Q. now apply in_map. }
  assert (F2 : forall m, In m (map f m2) -> foreign ts r m).
  { intros m IM. apply in_map_iff in IM. destruct IM as (m0 & <- & IM). apply FO.
    - apply in_or_app. right. now right.
    - intro Q. apply KO. apply in_or_app. right. rewrite <- Q. now apply in_map. }
  fold (matchInMacro strict presumed (map f m1) s1).
  set (s2 := matchInMacro strict presumed (map f m1) s1).
  fold (matchInMacro strict presumed (map f m2) (matchOne strict presumed (f (r, ns)) s2)).
  destruct (matchInMacro_foreign strict presumed ts r ND own (map f m1) s1 F1) as [A1 A2].
  destruct (matchInMacro_foreign strict presumed ts r ND own (map f m2)
              (matchOne strict presumed (f (r, ns)) s2) F2) as [_ B2].
  rewrite (B2 n i IN).
  assert (K2 : inv presumed is ts s2).
  { apply matchInMacro_inv; [exact K1|]. intros m IM. exact (proj2 (proj2 (F1 m IM))). }
  assert (Ef : f (r, ns) = (r, if negb strict then rev ns else ns)).
  { unfold f. now destruct (negb strict). }
  rewrite Ef. apply (matchOne_own strict presumed is ts r ND NI own alone s2 n i K2).
  - unfold s2. rewrite A1. exact W1.
  - intros n' i' Q N'. apply (A2 n' i' N') in Q. destruct (W5 n' i' Q) as (t & T1 & T2 & T3).
    apply nodesAt_In in N'. destruct N' as (u & U1 & U2 & U3 & U4).
    assert (t = u) by (apply (node_unique ts); congruence). congruence.
  - exact IN.
Qed.

(** Items which are not in macros: queues. *)
Definition nodesOf (V : list item) (l : loc) : list nat :=
  map tNode (filter (fun t => Nat.eqb (tLoc t) l) V).
Fixpoint zipAll (D : loc -> option (list nat)) (V : list item) : list (nat * nat) :=
  match V with
  | [] => []
  | t :: V =>
      match D (tLoc t) with
      | Some (i :: r) => (tNode t, i) :: zipAll (upd D (tLoc t) r) V
      | _ => zipAll D V
      end
  end.
Definition represents (M : irMap) (D : loc -> option (list nat)) : Prop :=
  forall l, match M l, D l with
            | Some q, Some d => qItems q = rev d
            | None, None => True
            | _, _ => False
            end.
Definition enough (D : loc -> option (list nat)) (V : list item) : Prop :=
  forall l d, D l = Some d -> length (nodesOf V l) <= length d.
Definition emplaceAll (P : list (nat * nat)) (B : list (nat * nat)) : list (nat * nat) :=
  fold_left (fun B p => emplace (fst p) (snd p) B) P B.
Lemma nodesOf_cons t V l : nodesOf (t :: V) l
  = (if Nat.eqb (tLoc t) l then [tNode t] else []) ++ nodesOf V l.
Proof. unfold nodesOf. cbn [filter]. now destruct (Nat.eqb (tLoc t) l). Qed.
Lemma items_done asserts V : forall s D, represents (sMap s) D -> enough D V ->
  (forall t, In t V -> tMacro t = false) ->
  exists s', visitItems asserts V s = Done s' /\ sMacro s' = sMacro s /\
    sMatch s' = emplaceAll (zipAll D V) (sMatch s).
Proof.
  induction V as [|t V IH]; intros s D R EN NM; cbn [visitItems zipAll].
  - exists s. auto.
  - unfold visitItem. rewrite (NM t (or_introl eq_refl)).
    unfold findIRForLocation. pose proof (R (tLoc t)) as RL.
    destruct (sMap s (tLoc t)) as [q|] eqn:EM.
    + destruct (D (tLoc t)) as [d|] eqn:ED; [|contradiction].
      rewrite RL, rev_involutive. pose proof (EN _ _ ED) as LE.
      rewrite nodesOf_cons, Nat.eqb_refl in LE. cbn [app length] in LE.
      destruct d as [|i d]; [cbn in LE; lia|]. cbn [length] in LE.
      match goal with |- context [visitItems asserts V ?x] =>
        destruct (IH x (upd D (tLoc t) d)) as (s' & E1 & E2 & E3) end.
      * intro l. cbn [sMap]. destruct (Nat.eq_dec (tLoc t) l) as [<-|N].
        -- rewrite !upd_same. reflexivity.
        -- rewrite !upd_other by exact N. apply R.
      * intros l d' E'. destruct (Nat.eq_dec (tLoc t) l) as [<-|N].
        -- rewrite upd_same in E'. injection E' as <-. lia.
        -- rewrite upd_other in E' by exact N. specialize (EN l d' E'). rewrite nodesOf_cons in EN.
           rewrite (proj2 (Nat.eqb_neq _ _) N) in EN. exact EN.
      * intros u U. apply NM. now right.
      * exists s'. split; [exact E1|]. split; [exact E2|exact E3].
    + destruct (D (tLoc t)) as [d|] eqn:ED; [contradiction|].
      match goal with |- context [visitItems asserts V ?x] =>
        destruct (IH x D) as (s' & E1 & E2 & E3) end.
      * exact R.
      * intros l d' E'. specialize (EN l d' E'). rewrite nodesOf_cons in EN.
        destruct (Nat.eqb_spec (tLoc t) l) as [<-|N]; [congruence|exact EN].
      * intros u U. apply NM. now right.
      * exists s'. split; [exact E1|]. split; [exact E2|exact E3].
Qed.
Lemma zipAll_In V : forall D n i, In (n, i) (zipAll D V) <->
  exists l d k, D l = Some d /\ nth_error (nodesOf V l) k = Some n /\ nth_error d k = Some i.
Proof.
  induction V as [|t V IH]; intros D n i; cbn [zipAll].
  - split; [intros []|]. intros (l & d & k & _ & E & _). destruct k; discriminate E.
  - assert (SK : (D (tLoc t) = None \/ D (tLoc t) = Some []) ->
      ((exists l d k, D l = Some d /\ nth_error (nodesOf V l) k = Some n /\ nth_error d k = Some i) <->
       (exists l d k, D l = Some d /\ nth_error (nodesOf (t :: V) l) k = Some n /\ nth_error d k = Some i))).
    { intro Q. split; intros (l & d & k & E1 & E2 & E3); exists l, d, k; rewrite nodesOf_cons in *;
        (destruct (Nat.eqb_spec (tLoc t) l) as [<-|N];
         [exfalso; destruct Q as [Q|Q]; rewrite Q in E1; [discriminate|];
          injection E1 as <-; destruct k; discriminate E3|auto]). }
    destruct (D (tLoc t)) as [[|j d0]|] eqn:ED.
    + rewrite IH. apply SK. now right.
    + cbn [In]. rewrite IH. split.
      * intros [E|(l & d & k & E1 & E2 & E3)].
        -- injection E as <- <-. exists (tLoc t), (j :: d0), 0. rewrite nodesOf_cons, Nat.eqb_refl. auto.
        -- destruct (Nat.eq_dec (tLoc t) l) as [<-|N].
           ++ rewrite upd_same in E1. injection E1 as <-. exists (tLoc t), (j :: d0), (S k).
              rewrite nodesOf_cons, Nat.eqb_refl. auto.
           ++ rewrite upd_other in E1 by exact N. exists l, d, k.
              rewrite nodesOf_cons, (proj2 (Nat.eqb_neq _ _) N). auto.
      * intros (l & d & k & E1 & E2 & E3). rewrite nodesOf_cons in E2.
        destruct (Nat.eqb_spec (tLoc t) l) as [<-|N].
        -- rewrite ED in E1. injection E1 as <-. destruct k as [|k].
           ++ left. cbn in E2, E3. congruence.
           ++ right. exists (tLoc t), d0, k. rewrite upd_same. auto.
        -- right. exists l, d, k. rewrite upd_other by exact N. auto.
    + rewrite IH. apply SK. now left.
Qed.
Lemma emplaceAll_In (R : nat -> nat -> Prop) P : forall B,
  (forall n i i', R n i -> R n i' -> i = i') -> (forall n n' i, R n i -> R n' i -> n = n') ->
  (forall n i, In (n, i) P \/ In (n, i) B -> R n i) ->
  forall p, In p (emplaceAll P B) <-> In p B \/ In p P.
Proof.
  unfold emplaceAll. induction P as [|[n i] P IH]; intros B F1 F2 RR p; cbn [fold_left].
  - cbn [In]. tauto.
  - cbn [fst snd]. assert (EI : forall p, In p (emplace n i B) <-> In p B \/ p = (n, i)).
    { intro p'. split; [apply emplace_In|]. intros [Q| ->]; [now apply emplace_keep|].
      unfold emplace. destruct (existsb _ B) eqn:E; [|apply in_or_app; right; now left].
      apply existsb_exists in E. destruct E as ([n' i'] & IB & E). cbn [fst snd] in E.
      assert (R1 : R n' i') by (apply RR; auto).
      assert (R2 : R n i) by (apply RR; left; now left).
      apply orb_true_iff in E. destruct E as [E|E]; apply Nat.eqb_eq in E; subst.
      - now rewrite (F1 _ _ _ R2 R1).
      - now rewrite (F2 _ _ _ R2 R1). }
    rewrite IH; auto.
    + rewrite EI. cbn [In]. intuition congruence.
    + intros n' i' [Q|Q]; [apply RR; left; now right|]. apply EI in Q.
      destruct Q as [Q|Q]; [apply RR; now right|apply RR; left; left; congruence].
Qed.

(** Expressions. *)
Definition accAt (G : list (nat * loc)) (l : loc) : list nat :=
  map fst (filter (fun g : nat * loc => Nat.eqb (snd g) l) G).
Definition okl (V : list item) (G : list (nat * loc)) : Prop :=
  forall l, accAt G l = [] \/ nodesOf V l = accAt G l.
Lemma nodesOf_app V W l : nodesOf (V ++ W) l = nodesOf V l ++ nodesOf W l.
Proof. unfold nodesOf. now rewrite filter_app, map_app. Qed.
Lemma accAt_app G H l : accAt (G ++ H) l = accAt G l ++ accAt H l.
Proof. unfold accAt. now rewrite filter_app, map_app. Qed.
Definition within (V : list item) (G : list (nat * loc)) (L : list loc) : Prop :=
  (forall t, In t V -> In (tLoc t) L) /\ (forall g, In g G -> In (snd g) L).
Lemma within_out V G L l : within V G L -> ~ In l L -> nodesOf V l = [] /\ accAt G l = [].
Proof.
  intros [W1 W2] N. unfold nodesOf, accAt. split.
  - assert (E : filter (fun t => Nat.eqb (tLoc t) l) V = []); [|now rewrite E].
    clear W2. induction V as [|t V IH]; [reflexivity|]. cbn [filter].
    destruct (Nat.eqb_spec (tLoc t) l) as [<-|NE].
    + exfalso. apply N, W1. now left.
    + apply IH. intros u U. apply W1. now right.
  - assert (E : filter (fun g : nat * loc => Nat.eqb (snd g) l) G = []); [|now rewrite E].
    clear W1. induction G as [|t G IH]; [reflexivity|]. cbn [filter].
    destruct (Nat.eqb_spec (snd t) l) as [<-|NE].
    + exfalso. apply N, W2. now left.
    + apply IH. intros u U. apply W2. now right.
Qed.
Lemma traverse_locs e : forall fs has, forall t, In t (fst (traverse e fs has)) -> In (tLoc t) (locs e).
Proof.
  assert (XL : forall e, In (exprLoc e) (locs e)).
  { induction e0; cbn [exprLoc locs]; try (now left). apply in_or_app. now left. }
  induction e as [id l|id l a|id b IHb i IHi|id l c a IHa b IHb|id l a IHa|id l a IHa|id l a IHa
                 |id l a IHa b IHb|id l a IHa]; intros fs has t H; cbn [traverse locs] in *.
  - destruct H.
  - destruct (_ && _); [destruct H|]. destruct H as [<-|[]]. now left.
  - destruct (traverse b (FBase :: fs) has) as [v1 h1] eqn:E1.
    destruct (traverse i (FIndex :: fs) h1) as [v2 h2] eqn:E2.
    destruct (inBaseAndKind fs false) as [ib ak]. cbn [fst] in H.
    apply in_app_or in H. destruct H as [H|H]; [|apply in_app_or in H; destruct H as [H|H]].
    + apply in_or_app. left. apply (IHb (FBase :: fs) has). now rewrite E1.
    + apply in_or_app. right. apply (IHi (FIndex :: fs) h1). now rewrite E2.
    + destruct (_ && _); [|destruct H]. destruct H as [<-|[]]. cbn [tLoc vis exprLoc].
      apply in_or_app. left. apply XL.
  - destruct (traverse a (FLhs :: fs) has) as [v1 h1] eqn:E1.
    destruct (traverse b (FOther :: fs) h1) as [v2 h2] eqn:E2. cbn [fst] in H.
    assert (K : In t v1 \/ In t v2 \/ tLoc t = l).
    { apply in_app_or in H. destruct H as [H|[<-|H]]; auto.
      - destruct c; [destruct H as [<-|[]]; auto|destruct H].
      - apply in_app_or in H. tauto. }
    destruct K as [K|[K| ->]]; [right; apply in_or_app; left|right; apply in_or_app; right|now left].
    + apply (IHa (FLhs :: fs) has). now rewrite E1.
    + apply (IHb (FOther :: fs) h1). now rewrite E2.
  - destruct (traverse a (FOther :: fs) has) as [v1 h1] eqn:E1. cbn [fst] in H.
    destruct H as [<-|[<-|H]]; [now left|now left|]. right. apply (IHa (FOther :: fs) has). now rewrite E1.
  - destruct (traverse a (FOther :: fs) has) as [v1 h1] eqn:E1. cbn [fst] in H.
    destruct H as [<-|H]; [now left|]. right. apply (IHa (FOther :: fs) has). now rewrite E1.
  - right. exact (IHa _ _ _ H).
  - destruct (traverse a (FOther :: fs) has) as [v1 h1] eqn:E1.
    destruct (traverse b (FOther :: fs) h1) as [v2 h2] eqn:E2. cbn [fst] in H.
    right. apply in_app_or in H. apply in_or_app. destruct H as [H|H]; [left|right].
    + apply (IHa (FOther :: fs) has). now rewrite E1.
    + apply (IHb (FOther :: fs) h1). now rewrite E2.
  - destruct (traverse a (FOther :: fs) has) as [v1 h1] eqn:E1. cbn [fst] in H.
    destruct H as [<-|H]; [now left|]. right. apply (IHa (FOther :: fs) has). now rewrite E1.
Qed.
Lemma exprLoc_In e : In (exprLoc e) (locs e).
Proof. induction e; cbn [exprLoc locs]; try (now left). apply in_or_app. now left. Qed.
Lemma accesses_locs e : forall v g, In g (accesses e v) -> In (snd g) (locs e).
Proof.
  induction e as [id l|id l a|id b IHb i IHi|id l c a IHa b IHb|id l a IHa|id l a IHa|id l a IHa
                 |id l a IHa b IHb|id l a IHa]; intros v g H; cbn [accesses locs] in *;
    repeat rewrite in_app_iff in *.
  - destruct H.
  - destruct (_ && _); [|destruct H]. destruct H as [<-|[]]. now left.
  - destruct H as [H|[H|H]].
    + left. exact (IHb _ _ H).
    + right. exact (IHi _ _ H).
    + destruct v; [|destruct H]. destruct H as [<-|[]]. left. cbn [snd exprLoc]. apply exprLoc_In.
  - cbn [In]. destruct H as [H|[H|[H|H]]].
    + right. rewrite in_app_iff. right. exact (IHb _ _ H).
    + right. rewrite in_app_iff. left. exact (IHa _ _ H).
    + left. destruct c; [|destruct H]. destruct H as [<-|[]]. reflexivity.
    + left. destruct H as [<-|[]]. reflexivity.
  - cbn [In] in *. destruct H as [H|[<-|[<-|[]]]]; cbn [snd]; auto. right. exact (IHa _ _ H).
  - cbn [In] in *. destruct H as [H|H]; [right; exact (IHa _ _ H)|].
    destruct v; [|destruct H]. destruct H as [<-|[]]. now left.
  - right. exact (IHa _ _ H).
  - cbn [In]. right. rewrite in_app_iff. destruct H as [H|H]; [left; exact (IHa _ _ H)|right; exact (IHb _ _ H)].
  - cbn [In] in *. destruct H as [H|[<-|[]]]; [right; exact (IHa _ _ H)|now left].
Qed.
Lemma within_ok e fs has v : within (fst (traverse e fs has)) (accesses e v) (locs e).
Proof. split; [apply traverse_locs|apply accesses_locs]. Qed.
Lemma kind_same fs b : snd (inBaseAndKind fs b) = snd (inBaseAndKind fs false).
Proof.
  revert b. induction fs as [|f fs IH]; intro b; [reflexivity|]. destruct f; cbn [inBaseAndKind]; auto.
Qed.
Lemma inBase_true fs : fst (inBaseAndKind fs true) = true.
Proof. induction fs as [|f fs IH]; [reflexivity|]. destruct f; cbn [inBaseAndKind]; auto. Qed.

Lemma okl_two V1 G1 L1 V2 G2 L2 : within V1 G1 L1 -> within V2 G2 L2 ->
  (forall l, In l L1 -> ~ In l L2) -> okl V1 G1 -> okl V2 G2 ->
  okl (V1 ++ V2) (G1 ++ G2) /\ okl (V1 ++ V2) (G2 ++ G1).
Proof.
  intros W1 W2 D O1 O2.
  assert (K : forall l, (nodesOf V1 l = [] /\ accAt G1 l = []) \/ (nodesOf V2 l = [] /\ accAt G2 l = [])).
  { intro l. destruct (in_dec Nat.eq_dec l L1) as [H|H].
    - right. apply (within_out V2 G2 L2); auto.
    - left. apply (within_out V1 G1 L1); auto. }
  split; intro l; rewrite nodesOf_app, accAt_app; specialize (O1 l); specialize (O2 l);
    destruct (K l) as [[-> E]|[-> E]]; rewrite E in *; rewrite ?app_nil_r; auto.
Qed.
(* items of the node itself *)
Definition visAt (l : loc) (A : list nat) : list item := map (fun n => vis n l) A.
Definition accsAt (l : loc) (A : list nat) : list (nat * loc) := map (fun n => (n, l)) A.
Lemma visAt_at l A l' : nodesOf (visAt l A) l' = if Nat.eqb l l' then A else [].
Proof.
  unfold nodesOf, visAt. induction A as [|a A IH]; cbn [map filter]; [now destruct (Nat.eqb l l')|].
  cbn [tLoc vis]. destruct (Nat.eqb l l') eqn:E; cbn [map tNode]; now rewrite IH.
Qed.
Lemma accsAt_at l A l' : accAt (accsAt l A) l' = if Nat.eqb l l' then A else [].
Proof.
  unfold accAt, accsAt. induction A as [|a A IH]; cbn [map filter]; [now destruct (Nat.eqb l l')|].
  cbn [snd]. destruct (Nat.eqb l l') eqn:E; cbn [map fst]; now rewrite IH.
Qed.
Lemma okl_own l A V G L : within V G L -> ~ In l L -> okl V G ->
  okl (visAt l A ++ V) (G ++ accsAt l A) /\
  nodesOf (visAt l A ++ V) l = accAt (G ++ accsAt l A) l.
Proof.
  intros W N O. destruct (within_out V G L l W N) as [E1 E2].
  assert (E : nodesOf (visAt l A ++ V) l = accAt (G ++ accsAt l A) l).
  { rewrite nodesOf_app, accAt_app, visAt_at, accsAt_at, Nat.eqb_refl, E1, E2. now rewrite app_nil_r. }
  split; [|exact E]. intro l'. destruct (Nat.eq_dec l l') as [<-|NE]; [now right|].
  rewrite nodesOf_app, accAt_app, visAt_at, accsAt_at, (proj2 (Nat.eqb_neq _ _) NE), app_nil_r.
  apply O.
Qed.
Lemma okl_extra l A V G L : within V G L -> ~ In l L -> okl V G -> okl (visAt l A ++ V) G.
Proof.
  intros W N O l'. destruct (Nat.eq_dec l l') as [<-|NE].
  - left. apply (within_out V G L l W N).
  - rewrite nodesOf_app, visAt_at, (proj2 (Nat.eqb_neq _ _) NE). apply O.
Qed.
Lemma NoDup_app_inv {A} (a b : list A) : NoDup (a ++ b) ->
  NoDup a /\ NoDup b /\ forall x, In x a -> ~ In x b.
Proof.
  induction a as [|x a IH]; cbn [app]; intro N.
  - repeat split; [constructor|exact N|intros ? []].
  - inversion N as [|? ? NI N']; subst. destruct (IH N') as (A1 & A2 & A3).
    repeat split; auto.
    + constructor; [|exact A1]. intro Q. apply NI. apply in_or_app. now left.
    + intros y [<-|Y]; [|now apply A3]. intro Q. apply NI. apply in_or_app. now right.
Qed.

Definition good (e : expr) : Prop := typed e /\ NoDup (locs e) /\ noIncSub e /\ simpleIndex e.
Lemma main_ok e : forall fs has, good e -> (has = false \/ noSubs e) ->
  let V := fst (traverse e fs has) in
  snd (traverse e fs has) = (if isSub e then fst (inBaseAndKind fs false) else has) /\
  (forall v, (isSub e = true -> v = isOther (snd (inBaseAndKind fs false))) -> okl V (accesses e v)) /\
  (forall fs', fs = FBase :: fs' -> isSub e = false ->
     nodesOf V (exprLoc e) = accAt (accesses e true) (exprLoc e)).
Proof.
  induction e as [id l|id l a|id b IHb i IHi|id l c a IHa b IHb|id l a IHa|id l a IHa|id l a IHa
                 |id l a IHa b IHb|id l a IHa]; intros fs has (T & ND & NI & SI) HS;
    cbn [typed locs noIncSub simpleIndex noSubs isSub] in *.
  - cbn. split; [reflexivity|]. split; [|reflexivity]. intros v _ l'. now left.
  - cbn [traverse accesses exprLoc]. split; [now destruct (_ && _)|]. split.
    + intros v _ l'. destruct (a && fst (inBaseAndKind fs false)) eqn:C; cbn [fst].
      * left. apply andb_true_iff in C. destruct C as [-> _]. now rewrite andb_false_r.
      * destruct (v && negb a); [|now left]. right. unfold nodesOf, accAt. cbn [filter tLoc vis snd].
        now destruct (Nat.eqb l l').
    + intros fs' -> _. cbn [inBaseAndKind]. rewrite inBase_true, andb_true_r. cbn [andb].
      destruct a; cbn [negb fst]; unfold nodesOf, accAt; [reflexivity|].
      cbn [filter tLoc vis snd]. now rewrite Nat.eqb_refl.
  - destruct HS as [->|[]].
    destruct T as (TR & TB & TI). destruct NI as (NB & NI). destruct SI as (SX & SB & SI).
    destruct (NoDup_app_inv _ _ ND) as (D1 & D2 & D3).
    destruct (IHb (FBase :: fs) false) as (B1 & B2 & B3); [repeat split; auto|now left|].
    cbn [inBaseAndKind] in B1, B2. rewrite inBase_true in B1. rewrite kind_same in B2.
    pose proof (within_ok b (FBase :: fs) false) as WB.
    cbn [traverse]. destruct (traverse b (FBase :: fs) false) as [v1 h1]. cbn [fst snd] in *.
    assert (H1 : h1 = isSub b) by (rewrite B1; now destruct (isSub b)). clear B1. subst h1.
    destruct (IHi (FIndex :: fs) (isSub b)) as (I1 & I2 & _); [repeat split; auto| |].
    { destruct (isSub b); [right; now apply SX|now left]. }
    cbn [inBaseAndKind fst snd isOther] in I1, I2.
    pose proof (within_ok i (FIndex :: fs) (isSub b)) as WI.
    destruct (traverse i (FIndex :: fs) (isSub b)) as [v2 h2]. cbn [fst snd] in *.
    assert (H2 : h2 = isSub b).
    { rewrite I1. destruct (isSub i) eqn:EI; [|reflexivity]. destruct (isSub b) eqn:EB; [|reflexivity].
      exfalso. specialize (SX eq_refl). destruct i; try discriminate EI. exact SX. }
    clear I1. subst h2.
    destruct (inBaseAndKind fs false) as [ib ak]. cbn [fst snd] in *.
    split; [reflexivity|]. split; [|discriminate].
    intros v Hv. rewrite (Hv eq_refl). clear Hv v. cbn [accesses exprLoc].
    set (v := isOther ak) in *. intro l.
    rewrite !nodesOf_app, !accAt_app.
    destruct (in_dec Nat.eq_dec l (locs i)) as [IL|NL].
    + assert (NB' : ~ In l (locs b)) by (intro Q; exact (D3 l Q IL)).
      assert (NE : exprLoc b <> l) by (intro Q; apply NB'; rewrite <- Q; apply exprLoc_In).
      pose proof (within_out _ _ _ l (WB (match b with Sub _ _ _ => false | _ => true end)) NB') as [E1 E2].
      rewrite E1, E2. cbn [app].
      assert (E3 : nodesOf (if negb (isSub b) && v then [vis id (exprLoc b)] else []) l = []).
      { destruct (_ && _); [|reflexivity]. unfold nodesOf. cbn [filter tLoc vis].
        now rewrite (proj2 (Nat.eqb_neq _ _) NE). }
      assert (E4 : forall n, accAt (if v then [(n, exprLoc b)] else []) l = []).
      { intro n. destruct v; [|reflexivity]. unfold accAt. cbn [filter snd].
        now rewrite (proj2 (Nat.eqb_neq _ _) NE). }
      rewrite E3, E4, !app_nil_r. apply I2. reflexivity.
    + pose proof (within_out _ _ _ l (WI true) NL) as [E1 E2]. rewrite E1, E2. cbn [app].
      destruct (isSub b) eqn:EB; cbn [negb andb].
      * specialize (B2 v (fun _ => eq_refl) l). cbn [nodesOf filter map]. rewrite app_nil_r.
        destruct b as [| |id' b' i'| | | | | | ]; try discriminate EB.
        cbn [accesses] in B2 |- *. rewrite !accAt_app in B2. rewrite !accAt_app, app_nil_r.
        change (innermost (Sub id (Sub id' b' i') i)) with (innermost (Sub id' b' i')).
        rewrite <- app_assoc. exact B2.
      * assert (EM : match b with Sub _ _ _ => false | _ => true end = true)
          by (destruct b; [..|]; try reflexivity; discriminate EB).
        rewrite EM.
        assert (EI : innermost (Sub id b i) = id) by (destruct b; try reflexivity; discriminate EB).
        rewrite EI. destruct (Nat.eq_dec (exprLoc b) l) as [<-|NE].
        -- right. rewrite (B3 fs eq_refl eq_refl). f_equal. destruct v; [|reflexivity].
           unfold nodesOf, accAt. cbn [filter tLoc vis snd]. now rewrite Nat.eqb_refl.
        -- assert (E3 : nodesOf (if v then [vis id (exprLoc b)] else []) l = []).
           { destruct v; [|reflexivity]. unfold nodesOf. cbn [filter tLoc vis].
             now rewrite (proj2 (Nat.eqb_neq _ _) NE). }
           assert (E4 : accAt (if v then [(id, exprLoc b)] else []) l = []).
           { destruct v; [|reflexivity]. unfold accAt. cbn [filter snd].
             now rewrite (proj2 (Nat.eqb_neq _ _) NE). }
           rewrite E3, E4, !app_nil_r. apply B2. discriminate.
  - destruct T as (TL & TA & TB). destruct NI as (NA & NB). destruct SI as (SA & SB).
    inversion ND as [|? ? NL ND']; subst. destruct (NoDup_app_inv _ _ ND') as (D1 & D2 & D3).
    assert (HA : has = false \/ noSubs a) by tauto. assert (HB : has = false \/ noSubs b) by tauto.
    destruct (IHa (FLhs :: fs) has) as (A1 & A2 & _); [repeat split; auto|exact HA|].
    cbn [inBaseAndKind fst snd isOther] in A1, A2.
    pose proof (within_ok a (FLhs :: fs) has false) as WA.
    cbn [traverse]. destruct (traverse a (FLhs :: fs) has) as [v1 h1]. cbn [fst snd] in *.
    assert (H1 : h1 = has).
    { rewrite A1. destruct (isSub a) eqn:EA; [|reflexivity]. destruct HA as [-> |HA]; [reflexivity|].
      destruct a; try discriminate EA. destruct HA. }
    clear A1. subst h1.
    destruct (IHb (FOther :: fs) has) as (B1 & B2 & _); [repeat split; auto|exact HB|].
    cbn [inBaseAndKind fst snd isOther] in B1, B2.
    pose proof (within_ok b (FOther :: fs) has true) as WB.
    destruct (traverse b (FOther :: fs) has) as [v2 h2]. cbn [fst snd] in *.
    assert (H2 : h2 = has).
    { rewrite B1. destruct (isSub b) eqn:EB; [|reflexivity]. destruct HB as [-> |HB]; [reflexivity|].
      destruct b; try discriminate EB. destruct HB. }
    clear B1. subst h2. split; [reflexivity|].
    pose proof (okl_two _ _ _ _ _ _ WA WB D3 (A2 false (fun _ => eq_refl)) (B2 true (fun _ => eq_refl)))
      as [_ O].
    assert (W : within (v1 ++ v2) (accesses b true ++ accesses a false) (locs a ++ locs b)).
    { destruct WA as [WA1 WA2], WB as [WB1 WB2]. split; intros t IT; apply in_app_or in IT;
        apply in_or_app; destruct IT; auto. }
    destruct (okl_own l ((if c then [idOf a] else []) ++ [id]) _ _ _ W NL O) as [K1 K2].
    assert (EV : (if c then [vis (idOf a) l] else []) ++ vis id l :: v1 ++ v2
                 = visAt l ((if c then [idOf a] else []) ++ [id]) ++ v1 ++ v2).
    { unfold visAt. destruct c; reflexivity. }
    assert (EG : forall v, accesses (Assign id l c a b) v
                 = (accesses b true ++ accesses a false) ++ accsAt l ((if c then [idOf a] else []) ++ [id])).
    { intro v. cbn [accesses]. unfold accsAt. rewrite <- app_assoc. now destruct c. }
    rewrite EV. cbn [exprLoc]. split.
    + intros v _. rewrite EG. exact K1.
    + intros fs' _ _. rewrite EG. exact K2.
  - destruct T as (TL & TA). destruct NI as (NS & NA).
    inversion ND as [|? ? NL ND']; subst.
    destruct (IHa (FOther :: fs) has) as (A1 & A2 & _); [repeat split; auto|exact HS|].
    pose proof (within_ok a (FOther :: fs) has false) as WA.
    cbn [traverse]. destruct (traverse a (FOther :: fs) has) as [v1 h1]. cbn [fst snd] in *.
    rewrite NS in A1, A2. split; [exact A1|].
    destruct (okl_own l [idOf a; id] _ _ _ WA NL (A2 false ltac:(discriminate))) as [K1 K2].
    cbn [exprLoc]. split; [intros v _; exact K1|intros fs' _ _; exact K2].
  - inversion ND as [|? ? NL ND']; subst.
    destruct (IHa (FOther :: fs) has) as (A1 & A2 & _); [repeat split; auto|exact HS|].
    cbn [inBaseAndKind fst snd isOther] in A1, A2.
    pose proof (within_ok a (FOther :: fs) has true) as WA.
    cbn [traverse]. destruct (traverse a (FOther :: fs) has) as [v1 h1]. cbn [fst snd] in *.
    assert (H1 : h1 = has).
    { rewrite A1. destruct (isSub a) eqn:EA; [|reflexivity]. destruct HS as [-> |HS]; [reflexivity|].
      destruct a; try discriminate EA. destruct HS. }
    split; [exact H1|]. specialize (A2 true (fun _ => eq_refl)).
    destruct (okl_own l [id] _ _ _ WA NL A2) as [K1 K2].
    pose proof (okl_extra l [id] _ _ _ WA NL A2) as K3.
    cbn [exprLoc accesses]. split.
    + intros [|] _; [exact K1|]. rewrite app_nil_r. exact K3.
    + intros fs' _ _. exact K2.
  - destruct T as (TL & TA). inversion ND as [|? ? NL ND']; subst.
    destruct (IHa (FAddr :: fs) has) as (A1 & A2 & _); [repeat split; auto|exact HS|].
    cbn [inBaseAndKind fst snd isOther] in A1, A2.
    pose proof (within_ok a (FAddr :: fs) has false) as WA. cbn [traverse].
    split.
    { rewrite A1. destruct (isSub a) eqn:EA; [|reflexivity]. destruct HS as [-> |HS]; [reflexivity|].
      destruct a; try discriminate EA. destruct HS. }
    cbn [accesses exprLoc]. split.
    + intros v _. apply A2. reflexivity.
    + intros fs' _ _. pose proof (within_out _ _ _ l WA NL) as [E1 E2]. now rewrite E1, E2.
  - destruct T as (TA & TB). destruct NI as (NA & NB). destruct SI as (SA & SB).
    inversion ND as [|? ? NL ND']; subst. destruct (NoDup_app_inv _ _ ND') as (D1 & D2 & D3).
    assert (HA : has = false \/ noSubs a) by tauto. assert (HB : has = false \/ noSubs b) by tauto.
    destruct (IHa (FOther :: fs) has) as (A1 & A2 & _); [repeat split; auto|exact HA|].
    cbn [inBaseAndKind fst snd isOther] in A1, A2.
    pose proof (within_ok a (FOther :: fs) has true) as WA.
    cbn [traverse]. destruct (traverse a (FOther :: fs) has) as [v1 h1]. cbn [fst snd] in *.
    assert (H1 : h1 = has).
    { rewrite A1. destruct (isSub a) eqn:EA; [|reflexivity]. destruct HA as [-> |HA]; [reflexivity|].
      destruct a; try discriminate EA. destruct HA. }
    clear A1. subst h1.
    destruct (IHb (FOther :: fs) has) as (B1 & B2 & _); [repeat split; auto|exact HB|].
    cbn [inBaseAndKind fst snd isOther] in B1, B2.
    pose proof (within_ok b (FOther :: fs) has true) as WB.
    destruct (traverse b (FOther :: fs) has) as [v2 h2]. cbn [fst snd] in *.
    assert (H2 : h2 = has).
    { rewrite B1. destruct (isSub b) eqn:EB; [|reflexivity]. destruct HB as [-> |HB]; [reflexivity|].
      destruct b; try discriminate EB. destruct HB. }
    split; [exact H2|].
    pose proof (okl_two _ _ _ _ _ _ WA WB D3 (A2 true (fun _ => eq_refl)) (B2 true (fun _ => eq_refl)))
      as [O _].
    cbn [accesses exprLoc]. split; [intros v _; exact O|].
    intros fs' _ _. rewrite nodesOf_app, accAt_app.
    assert (NA' : ~ In l (locs a)) by (intro Q; apply NL; apply in_or_app; now left).
    assert (NB' : ~ In l (locs b)) by (intro Q; apply NL; apply in_or_app; now right).
    destruct (within_out _ _ _ l WA NA') as [-> ->]. now destruct (within_out _ _ _ l WB NB') as [-> ->].
  - inversion ND as [|? ? NL ND']; subst.
    destruct (IHa (FOther :: fs) has) as (A1 & A2 & _); [repeat split; auto|exact HS|].
    cbn [inBaseAndKind fst snd isOther] in A1, A2.
    pose proof (within_ok a (FOther :: fs) has true) as WA.
    cbn [traverse]. destruct (traverse a (FOther :: fs) has) as [v1 h1]. cbn [fst snd] in *.
    assert (H1 : h1 = has).
    { rewrite A1. destruct (isSub a) eqn:EA; [|reflexivity]. destruct HS as [-> |HS]; [reflexivity|].
      destruct a; try discriminate EA. destruct HS. }
    split; [exact H1|]. specialize (A2 true (fun _ => eq_refl)).
    destruct (okl_own l [id] _ _ _ WA NL A2) as [K1 K2].
    cbn [exprLoc accesses]. split; [intros v _; exact K1|intros fs' _ _; exact K2].
Qed.

(** Nodes of accesses are distinct. *)
Lemma innermost_In e : In (innermost e) (ids e).
Proof.
  induction e as [| |id b IHb i _| | | | | |]; try (now left).
  destruct b; try (now left). right. apply in_or_app. left. exact IHb.
Qed.
Lemma accesses_ids e : forall v g, In g (accesses e v) -> In (fst g) (ids e).
Proof.
  assert (ID : forall e, In (idOf e) (ids e)) by (intros []; cbn; auto).
  induction e as [id l|id l a|id b IHb i IHi|id l c a IHa b IHb|id l a IHa|id l a IHa|id l a IHa
                 |id l a IHa b IHb|id l a IHa]; intros v g H.
  - destruct H.
  - cbn in *. destruct (_ && _); [|destruct H]. destruct H as [<-|[]]. now left.
  - cbn [accesses] in H. rewrite !in_app_iff in H. destruct H as [H|[H|H]].
    + cbn [ids In]. right. apply in_or_app. left. exact (IHb _ _ H).
    + cbn [ids In]. right. apply in_or_app. right. exact (IHi _ _ H).
    + destruct v; [|destruct H]. destruct H as [<-|[]]. apply innermost_In.
  - cbn [accesses ids In] in *. rewrite !in_app_iff in *. destruct H as [H|[H|[H|H]]].
    + right. right. exact (IHb _ _ H).
    + right. left. exact (IHa _ _ H).
    + destruct c; [|destruct H]. destruct H as [<-|[]]. right. left. apply ID.
    + destruct H as [<-|[]]. now left.
  - cbn [accesses ids In] in *. rewrite in_app_iff in *. destruct H as [H|[<-|[<-|[]]]].
    + right. exact (IHa _ _ H).
    + right. apply ID.
    + now left.
  - cbn [accesses ids In] in *. rewrite in_app_iff in *. destruct H as [H|H]; [right; exact (IHa _ _ H)|].
    destruct v; [|destruct H]. destruct H as [<-|[]]. now left.
  - right. exact (IHa _ _ H).
  - cbn [accesses ids In] in *. rewrite !in_app_iff in *. right.
    destruct H as [H|H]; [left; exact (IHa _ _ H)|right; exact (IHb _ _ H)].
  - cbn [accesses ids In] in *. rewrite in_app_iff in *.
    destruct H as [H|[<-|[]]]; [right; exact (IHa _ _ H)|now left].
Qed.
Lemma accesses_id e v n : In n (map fst (accesses e v)) -> In n (ids e).
Proof. intro H. apply in_map_iff in H. destruct H as (g & <- & H). exact (accesses_ids _ _ _ H). Qed.
Lemma NoDup_app_intro {A} (a b : list A) : NoDup a -> NoDup b -> (forall x, In x a -> ~ In x b) ->
  NoDup (a ++ b).
Proof.
  induction a as [|x a IH]; cbn [app]; intros N1 N2 D; [exact N2|]. inversion N1; subst.
  constructor; [|apply IH; auto; intros y Y; apply D; now right].
  intro Q. apply in_app_or in Q. destruct Q as [Q|Q]; [contradiction|]. exact (D x (or_introl eq_refl) Q).
Qed.
Lemma innermost_out e : isSub e = true -> NoDup (ids e) -> ~ In (innermost e) (map fst (accesses e false)).
Proof.
  induction e as [| |id b IHb i _| | | | | |]; try discriminate. intros _ N.
  cbn [ids] in N. inversion N as [|? ? NI N']; subst. destruct (NoDup_app_inv _ _ N') as (N1 & N2 & N3).
  cbn [accesses]. rewrite app_nil_r, map_app. intro Q. apply in_app_or in Q.
  destruct (isSub b) eqn:EB.
  - destruct b as [| |id' b' i'| | | | | |]; try discriminate EB.
    change (innermost (Sub id (Sub id' b' i') i)) with (innermost (Sub id' b' i')) in Q.
    destruct Q as [Q|Q]; [exact (IHb eq_refl N1 Q)|].
    apply (N3 (innermost (Sub id' b' i'))); [|exact (accesses_id _ _ _ Q)].
    apply innermost_In.
  - assert (EI : innermost (Sub id b i) = id) by (destruct b; try reflexivity; discriminate EB).
    rewrite EI in Q. apply NI. apply in_or_app.
    destruct Q as [Q|Q]; [left|right]; exact (accesses_id _ _ _ Q).
Qed.
Lemma lvalue_out e : isLvalue e = true -> NoDup (ids e) -> ~ In (idOf e) (map fst (accesses e false)).
Proof.
  destruct e as [|id l a|id b i| | |id l a| | |]; try discriminate; intros _ N; cbn [ids idOf accesses] in *.
  - cbn. auto.
  - inversion N as [|? ? NI N']; subst. rewrite app_nil_r, map_app. intro Q. apply NI.
    apply in_app_or in Q. apply in_or_app. destruct Q as [Q|Q]; [left|right]; exact (accesses_id _ _ _ Q).
  - inversion N as [|? ? NI N']; subst. rewrite app_nil_r. intro Q. apply NI. exact (accesses_id _ _ _ Q).
Qed.
Lemma accesses_NoDup e : forall v, typed e -> NoDup (ids e) -> NoDup (map fst (accesses e v)).
Proof.
  assert (ID : forall e, In (idOf e) (ids e)) by (intros []; cbn; auto).
  induction e as [id l|id l a|id b IHb i IHi|id l c a IHa b IHb|id l a IHa|id l a IHa|id l a IHa
                 |id l a IHa b IHb|id l a IHa]; intros v T N.
  - constructor.
  - cbn. destruct (_ && _); cbn; repeat constructor; auto.
  - pose proof (innermost_out (Sub id b i) eq_refl N) as IO.
    cbn [typed ids] in *. inversion N as [|? ? NI N']; subst.
    destruct (NoDup_app_inv _ _ N') as (N1 & N2 & N3).
    assert (K : NoDup (map fst (accesses (Sub id b i) false))).
    { cbn [accesses]. rewrite app_nil_r, map_app. apply NoDup_app_intro.
      - apply IHb; tauto.
      - apply IHi; tauto.
      - intros x X Y. exact (N3 x (accesses_id _ _ _ X) (accesses_id _ _ _ Y)). }
    destruct v; [|exact K].
    assert (E : accesses (Sub id b i) true
      = accesses (Sub id b i) false ++ [(innermost (Sub id b i), exprLoc (Sub id b i))]).
    { cbn [accesses]. now rewrite app_nil_r, <- app_assoc. }
    rewrite E, map_app. apply NoDup_snoc; [exact K|exact IO].
  - cbn [typed ids] in *. destruct T as (TL & TA & TB). inversion N as [|? ? NI N']; subst.
    destruct (NoDup_app_inv _ _ N') as (N1 & N2 & N3). cbn [accesses]. rewrite !map_app.
    apply NoDup_app_intro; [now apply IHb| |].
    + apply NoDup_app_intro; [now apply IHa| |].
      * cbn [map fst]. destruct c; cbn; repeat constructor; auto. intros [Q|[]].
        apply NI. apply in_or_app. left. rewrite Q. apply ID.
      * intros x X Y. apply in_app_or in Y. destruct Y as [Y|[<-|[]]].
        -- destruct c; [|destruct Y]. destruct Y as [<-|[]]. exact (lvalue_out a TL N1 X).
        -- apply NI. apply in_or_app. left. exact (accesses_id _ _ _ X).
    + intros x X Y. apply accesses_id in X. apply in_app_or in Y. destruct Y as [Y|Y].
      * exact (N3 x (accesses_id _ _ _ Y) X).
      * apply in_app_or in Y. destruct Y as [Y|[<-|[]]].
        -- destruct c; [|destruct Y]. destruct Y as [<-|[]]. exact (N3 _ (ID a) X).
        -- apply NI. apply in_or_app. now right.
  - cbn [typed ids accesses] in *. destruct T as (TL & TA). inversion N as [|? ? NI N']; subst.
    rewrite map_app. apply NoDup_app_intro; [now apply IHa| |].
    + cbn. repeat constructor; auto. intros [Q|[]]. apply NI. rewrite Q. apply ID.
    + intros x X [<-|[<-|[]]]; [exact (lvalue_out a TL N' X)|]. apply NI. exact (accesses_id _ _ _ X).
  - cbn [typed ids accesses] in *. inversion N as [|? ? NI N']; subst. rewrite map_app.
    apply NoDup_app_intro; [now apply IHa| |].
    + destruct v; cbn; repeat constructor; auto.
    + intros x X Y. destruct v; [|destruct Y]. destruct Y as [<-|[]]. apply NI. exact (accesses_id _ _ _ X).
  - cbn [typed ids accesses] in *. inversion N; subst. apply IHa; tauto.
  - cbn [typed ids accesses] in *. inversion N as [|? ? NI N']; subst.
    destruct (NoDup_app_inv _ _ N') as (N1 & N2 & N3). rewrite map_app.
    apply NoDup_app_intro; [apply IHa; tauto|apply IHb; tauto|].
    intros x X Y. exact (N3 x (accesses_id _ _ _ X) (accesses_id _ _ _ Y)).
  - cbn [typed ids accesses] in *. inversion N as [|? ? NI N']; subst. rewrite map_app.
    apply NoDup_snoc; [now apply IHa|]. intro Q. apply NI. exact (accesses_id _ _ _ Q).
Qed.

(** Numbers of instructions. *)
Lemma combine_seq {A} (G : list A) : forall o k x,
  In (k, x) (combine (seq o (length G)) G) <-> o <= k /\ nth_error G (k - o) = Some x.
Proof.
  induction G as [|g G IH]; intros o k x; cbn [length seq combine In].
  - split; [intros []|]. intros [_ E]. destruct (k - o); discriminate E.
  - rewrite IH. split.
    + intros [E|[L E]].
      * injection E as -> ->. rewrite Nat.sub_diag. auto.
      * split; [lia|]. replace (k - o) with (S (k - S o)) by lia. exact E.
    + intros [L E]. destruct (Nat.eq_dec k o) as [->|N].
      * rewrite Nat.sub_diag in E. left. cbn in E. congruence.
      * right. split; [lia|]. replace (k - o) with (S (k - S o)) in E by lia. exact E.
Qed.
Definition placed (G : list (nat * loc)) (o : nat) (l : loc) : list (nat * (nat * loc)) :=
  filter (fun p : nat * (nat * loc) => Nat.eqb (snd (snd p)) l) (combine (seq o (length G)) G).
Lemma placed_acc G l : forall o, map (fun p : nat * (nat * loc) => fst (snd p)) (placed G o l) = accAt G l.
Proof.
  unfold placed, accAt. induction G as [|[n l'] G IH]; intro o; [reflexivity|].
  cbn [length seq combine filter snd fst]. destruct (Nat.eqb l' l); cbn [map fst snd]; now rewrite IH.
Qed.
Lemma filter_true {A} (f : A -> bool) l : (forall x, f x = true) -> filter f l = l.
Proof. intro H. induction l as [|x l IH]; [reflexivity|]. cbn [filter]. now rewrite H, IH. Qed.
Lemma placed_instr e kept l : (forall k, kept k = true) ->
  instrsAt (instructionsOf kept e) l = map fst (placed (accesses e true) 0 l).
Proof.
  intro K. unfold instructionsOf. rewrite filter_true by (intro; apply K).
  unfold placed, instrsAt. generalize (combine (seq 0 (length (accesses e true))) (accesses e true)).
  intro P. induction P as [|[k [n l']] P IH]; [reflexivity|]. cbn [map filter fst snd].
  destruct (Nat.eqb l' l); cbn [map fst]; now rewrite IH.
Qed.

Lemma traverse_plain e : forall fs has t, In t (fst (traverse e fs has)) -> tMacro t = false.
Proof.
  induction e as [id l|id l a|id b IHb i IHi|id l c a IHa b IHb|id l a IHa|id l a IHa|id l a IHa
                 |id l a IHa b IHb|id l a IHa]; intros fs has t H; cbn [traverse] in H.
      - destruct H.
      - destruct (_ && _); [destruct H|]. destruct H as [<-|[]]. reflexivity.
      - specialize (IHb (FBase :: fs) has). destruct (traverse b (FBase :: fs) has) as [v1 h1].
        specialize (IHi (FIndex :: fs) h1). destruct (traverse i (FIndex :: fs) h1) as [v2 h2].
        destruct (inBaseAndKind fs false). cbn [fst] in *. rewrite !in_app_iff in H.
        destruct H as [H|[H|H]]; auto. destruct (_ && _); [|destruct H]. destruct H as [<-|[]]. reflexivity.
      - specialize (IHa (FLhs :: fs) has). destruct (traverse a (FLhs :: fs) has) as [v1 h1].
        specialize (IHb (FOther :: fs) h1). destruct (traverse b (FOther :: fs) h1) as [v2 h2].
        cbn [fst] in *. apply in_app_or in H. destruct H as [H|[<-|H]]; [|reflexivity|].
        + destruct c; [destruct H as [<-|[]]; reflexivity|destruct H].
        + apply in_app_or in H. destruct H; auto.
      - specialize (IHa (FOther :: fs) has). destruct (traverse a (FOther :: fs) has) as [v1 h1].
        cbn [fst] in *. destruct H as [<-|[<-|H]]; auto.
      - specialize (IHa (FOther :: fs) has). destruct (traverse a (FOther :: fs) has) as [v1 h1].
        cbn [fst] in *. destruct H as [<-|H]; auto.
      - exact (IHa _ _ _ H).
      - specialize (IHa (FOther :: fs) has). destruct (traverse a (FOther :: fs) has) as [v1 h1].
        specialize (IHb (FOther :: fs) h1). destruct (traverse b (FOther :: fs) h1) as [v2 h2].
        cbn [fst] in *. apply in_app_or in H. destruct H; auto.
      - specialize (IHa (FOther :: fs) has). destruct (traverse a (FOther :: fs) has) as [v1 h1].
        cbn [fst] in *. destruct H as [<-|H]; auto.
Qed.
Lemma exact_ok : C79_exact_claim true true true.
Proof.
  intros asserts strict revMacro presumed order e kept O T NI NL GI GX GK.
  specialize (GI eq_refl). specialize (GX eq_refl). specialize (GK eq_refl).
  set (is := instructionsOf kept e).
  set (D := fun l => match instrsAt is l with [] => None | d => Some d end).
  destruct (main_ok e [] false) as (_ & OK & _); [repeat split; auto|now left|].
  specialize (OK true (fun _ => eq_refl)). fold (visits e) in OK.
  assert (EP : forall l, instrsAt is l = map fst (placed (accesses e true) 0 l)).
  { intro l. unfold is. now apply placed_instr. }
  assert (OL : forall l, instrsAt is l = [] \/
    nodesOf (visits e) l = map (fun p : nat * (nat * loc) => fst (snd p)) (placed (accesses e true) 0 l)).
  { intro l. rewrite EP, placed_acc. destruct (OK l) as [Q|Q]; [left|right; exact Q].
    rewrite <- (placed_acc _ _ 0) in Q. apply map_eq_nil in Q. now rewrite Q. }
  destruct (items_done asserts (visits e) (State (start is) [] [] []) D) as (s & E1 & E2 & E3).
  - intro l. cbn [sMap]. pose proof (start_at is l) as H. unfold D.
    destruct (start is l) as [q|].
    + destruct H as [H1 H2]. destruct (instrsAt is l); [congruence|exact H1].
    + now rewrite H.
  - intros l d E. unfold D in E. destruct (OL l) as [Q|Q]; [rewrite Q in E; discriminate|].
    rewrite Q. destruct (instrsAt is l) eqn:EI; [discriminate|]. injection E as <-.
    rewrite <- EI, EP, !map_length. lia.
  - intros t H. exact (traverse_plain _ _ _ _ H).
  - cbn [sMacro sMatch] in E2, E3. exists s. unfold run. fold (start is). rewrite E1.
    assert (EO : order (sMacro s) = []).
    { rewrite E2. apply Permutation_nil. symmetry. apply O. }
    rewrite EO. assert (EM : (if revMacro then map (fun m => (fst m, rev (snd m))) [] else [])
      = @nil (loc * list nat)) by now destruct revMacro.
    rewrite EM. unfold matchInMacro. cbn [fold_left]. split; [reflexivity|]. rewrite E3.
    set (R := fun n k => exists l, nth_error (accesses e true) k = Some (n, l)).
    assert (ZR : forall n k, In (n, k) (zipAll D (visits e)) <-> R n k).
    { intros n k. rewrite zipAll_In. split.
      - intros (l & d & j & H1 & H2 & H3). unfold D in H1.
        destruct (OL l) as [Q|Q]; [rewrite Q in H1; discriminate|].
        assert (Ed : d = instrsAt is l) by (destruct (instrsAt is l); congruence).
        rewrite Ed, EP, nth_error_map in H3. rewrite Q, nth_error_map in H2.
        destruct (nth_error (placed (accesses e true) 0 l) j) as [[k' [n' l']]|] eqn:EJ; [|discriminate].
        cbn in H2, H3. injection H2 as <-. injection H3 as <-.
        apply nth_error_In in EJ. unfold placed in EJ. apply filter_In in EJ. destruct EJ as [EJ _].
        apply combine_seq in EJ. rewrite Nat.sub_0_r in EJ. exists l'. tauto.
      - intros (l & E). assert (IP : In (k, (n, l)) (placed (accesses e true) 0 l)).
        { unfold placed. apply filter_In. split; [|apply Nat.eqb_refl]. apply combine_seq.
          rewrite Nat.sub_0_r. split; [lia|exact E]. }
        apply In_nth_error in IP. destruct IP as [j EJ]. exists l, (instrsAt is l), j.
        assert (NE : instrsAt is l <> []).
        { rewrite EP. intro Q. apply map_eq_nil in Q. rewrite Q in EJ. destruct j; discriminate EJ. }
        split; [unfold D; destruct (instrsAt is l); congruence|].
        destruct (OL l) as [Q|Q]; [contradiction|].
        rewrite EP, Q, !nth_error_map, EJ. auto. }
    assert (NA : NoDup (map fst (accesses e true))) by now apply accesses_NoDup.
    intros n k. rewrite (emplaceAll_In R).
    + cbn [In]. rewrite ZR. unfold R. split; [intros [[]|H]; split; [apply GK|exact H]|tauto].
    + intros a i i' (l & H) (l' & H').
      assert (F : nth_error (map fst (accesses e true)) i = nth_error (map fst (accesses e true)) i').
      { now rewrite !nth_error_map, H, H'. }
      assert (L : i < length (map fst (accesses e true))).
      { rewrite map_length. apply nth_error_Some. congruence. }
      exact (proj1 (NoDup_nth_error _) NA i i' L F).
    + intros a a' i (l & H) (l' & H'). congruence.
    + intros a i [H|[]]. now apply ZR.
Qed.

(** Unmatched nodes. *)
Lemma traverse_ids e : noIncs e -> NoDup (ids e) -> forall fs has,
  NoDup (map tNode (fst (traverse e fs has))) /\
  (forall n, In n (map tNode (fst (traverse e fs has))) -> In n (ids e)).
Proof.
  assert (C : forall (a b : list item) (x y : list nat), (NoDup (map tNode a) /\ forall n, In n (map tNode a) -> In n x) ->
    (NoDup (map tNode b) /\ forall n, In n (map tNode b) -> In n y) -> (forall n, In n x -> ~ In n y) ->
    NoDup (map tNode (a ++ b)) /\ forall n, In n (map tNode (a ++ b)) -> In n (x ++ y)).
  { intros a b x y [A1 A2] [B1 B2] D. rewrite map_app. split.
    - apply NoDup_app_intro; auto. intros n N M. exact (D n (A2 n N) (B2 n M)).
    - intros n N. apply in_app_or in N. apply in_or_app. destruct N; auto. }
  assert (H : forall (a : list item) x id l, (NoDup (map tNode a) /\ forall n, In n (map tNode a) -> In n x) ->
    ~ In id x -> NoDup (map tNode (vis id l :: a)) /\ forall n, In n (map tNode (vis id l :: a)) -> In n (id :: x)).
  { intros a x id l [A1 A2] N. cbn [map tNode vis]. split.
    - constructor; auto.
    - intros n [<-|Q]; [now left|right; auto]. }
  assert (W : forall (a : list item) x id, (NoDup (map tNode a) /\ forall n, In n (map tNode a) -> In n x) ->
    NoDup (map tNode a) /\ forall n, In n (map tNode a) -> In n (id :: x)).
  { intros a x id [A1 A2]. split; [exact A1|]. intros n N. right. auto. }
  induction e as [id l|id l a|id b IHb i IHi|id l c a IHa b IHb|id l a IHa|id l a IHa|id l a IHa
                 |id l a IHa b IHb|id l a IHa]; intros NC N fs has; cbn [noIncs ids traverse] in *.
  - split; [constructor|intros n []].
  - destruct (_ && _); cbn; (split; [repeat constructor; auto|]); tauto.
  - inversion N as [|? ? NI N']; subst. destruct (NoDup_app_inv _ _ N') as (N1 & N2 & N3).
    specialize (IHb (proj1 NC) N1 (FBase :: fs) has). destruct (traverse b (FBase :: fs) has) as [v1 h1].
    specialize (IHi (proj2 NC) N2 (FIndex :: fs) h1). destruct (traverse i (FIndex :: fs) h1) as [v2 h2].
    destruct (inBaseAndKind fs false). cbn [fst] in *. destruct (C _ _ _ _ IHb IHi N3) as [K1 K2].
    rewrite app_assoc. destruct (_ && _).
    + rewrite (map_app tNode (v1 ++ v2)). cbn [map tNode vis]. split.
      * apply NoDup_snoc; auto.
      * intros n Q. apply in_app_or in Q. destruct Q as [Q|[<-|[]]]; [right; auto|now left].
    + rewrite app_nil_r. apply W. auto.
  - destruct NC as (-> & NA & NB). inversion N as [|? ? NI N']; subst.
    destruct (NoDup_app_inv _ _ N') as (N1 & N2 & N3).
    specialize (IHa NA N1 (FLhs :: fs) has). destruct (traverse a (FLhs :: fs) has) as [v1 h1].
    specialize (IHb NB N2 (FOther :: fs) h1). destruct (traverse b (FOther :: fs) h1) as [v2 h2].
    cbn [fst app] in *. apply H; [|exact NI]. now apply C.
  - destruct NC.
  - inversion N as [|? ? NI N']; subst.
    specialize (IHa NC N' (FOther :: fs) has). destruct (traverse a (FOther :: fs) has) as [v1 h1].
    cbn [fst] in *. now apply H.
  - inversion N as [|? ? NI N']; subst. apply W. exact (IHa NC N' _ _).
  - inversion N as [|? ? NI N']; subst. destruct (NoDup_app_inv _ _ N') as (N1 & N2 & N3).
    specialize (IHa (proj1 NC) N1 (FOther :: fs) has). destruct (traverse a (FOther :: fs) has) as [v1 h1].
    specialize (IHb (proj2 NC) N2 (FOther :: fs) h1). destruct (traverse b (FOther :: fs) h1) as [v2 h2].
    cbn [fst] in *. apply W. now apply C.
  - inversion N as [|? ? NI N']; subst.
    specialize (IHa NC N' (FOther :: fs) has). destruct (traverse a (FOther :: fs) has) as [v1 h1].
    cbn [fst] in *. now apply H.
Qed.
Lemma disjoint_items asserts us : forall pre s s', NoDup (map tNode (pre ++ us)) ->
  (forall t, In t us -> tMacro t = false) ->
  (forall n i, In (n, i) (sMatch s) -> In n (map tNode pre) /\ ~ In n (sUnmatched s)) ->
  (forall n, In n (sUnmatched s) -> In n (map tNode pre)) -> sMacro s = [] ->
  visitItems asserts us s = Done s' ->
  sMacro s' = [] /\ forall n i, In (n, i) (sMatch s') -> ~ In n (sUnmatched s').
Proof.
  induction us as [|t us IH]; intros pre s s' N NM D1 D2 ME H; cbn [visitItems] in H.
  - injection H as <-. split; [exact ME|]. intros n i IN. apply (D1 n i IN).
  - unfold visitItem in H. rewrite (NM t (or_introl eq_refl)) in H.
    destruct (findIRForLocation asserts (sMap s) (tLoc t)) as [|[o M]]; [discriminate|].
    assert (NT : ~ In (tNode t) (map tNode pre)).
    { rewrite map_app in N. cbn [map] in N. intro Q. apply NoDup_remove_2 in N. apply N.
      apply in_or_app. now left. }
    assert (AP : map tNode (pre ++ [t]) = map tNode pre ++ [tNode t]) by now rewrite map_app.
    assert (N' : NoDup (map tNode ((pre ++ [t]) ++ us))) by now rewrite <- app_assoc.
    destruct o as [i|]; cbn iota in H; apply (IH (pre ++ [t])) in H; auto; cbn [sMatch sUnmatched sMacro]; auto;
      try (intros u U; apply NM; now right); rewrite AP.
    + intros n j IN. rewrite in_app_iff. destruct (emplace_In _ _ _ _ IN) as [Q|Q].
      * destruct (D1 n j Q). auto.
      * injection Q as -> ->. split; [right; now left|]. intro U. exact (NT (D2 _ U)).
    + intros n U. apply in_or_app. left. auto.
    + intros n j IN. rewrite in_app_iff. destruct (D1 n j IN) as [Q1 Q2]. split; [auto|].
      intros [<-|U]; auto.
    + intros n [<-|U]; apply in_or_app; [right; now left|left; auto].
Qed.
Lemma unmatched_ok : C79_unmatched_claim true.
Proof.
  intros asserts strict revMacro presumed order e is s O T NI G H. unfold run in H.
  destruct (visitItems asserts (visits e) _) as [|s1] eqn:E; [discriminate|]. injection H as <-.
  destruct (traverse_ids e (G eq_refl) NI [] false) as [NV _]. fold (visits e) in NV.
  assert (MD : sMacro s1 = [] /\ forall n i, In (n, i) (sMatch s1) -> ~ In n (sUnmatched s1)).
  { apply (disjoint_items asserts (visits e) [] _ s1 NV (fun t H => traverse_plain e [] false t H)) in E; auto;
      cbn; intros; contradiction. }
  destruct MD as [ME D].
  assert (EO : order (sMacro s1) = []) by (rewrite ME; apply Permutation_nil; symmetry; apply O).
  rewrite EO. destruct revMacro; exact D.
Qed.
