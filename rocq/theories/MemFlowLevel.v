(** The equations of one region: the values of the solver on the graph of a
    loop whose edges are known (C46). *)
From Coq Require Import ZArith Bool List Arith Lia Permutation.
From Verif Require Import RangeModel RangeSpec MemSetModel MemSetSpec DFValueModel
  DFlowModel DFlowSpec RegionModel RegionSpec RegionProof Prop_Region
  MemFlowModel MemFlowSpec MemFlowSolve.
Import ListNotations.
Open Scope nat_scope.

Lemma code_decode k : code (decode k) = k.
Proof.
  destruct k as [|[|[|k]]]; try reflexivity. cbn [decode].
  destruct (Nat.even k) eqn:E; cbn [code].
  - apply Nat.even_spec in E. destruct E as [m ->]. rewrite Nat.div2_double. lia.
  - assert (O : Nat.odd k = true) by (unfold Nat.odd; now rewrite E).
    apply Nat.odd_spec in O. destruct O as [m ->].
    replace (2 * m + 1) with (S (2 * m)) by lia. rewrite Nat.div2_succ_double. lia.
Qed.

(** Any path along successors in a graph on codes. *)
Lemma path_snoc next a b c : path next a b -> In c (next b) -> path next a c.
Proof.
  intros P. induction P as [a|a b d I P IH]; intros H.
  - eapply path_step; [exact H|constructor].
  - eapply path_step; [exact I|auto].
Qed.

Section Level.
Variable bsucc bpred : block -> list block.
Variable shuffle : list (block * rnode) -> list (block * rnode).
Hypothesis SH : forall m, Permutation (shuffle m) m.
Variable f : loop.
Hypothesis NO : nestOk bsucc bpred f.
Hypothesis RED : reducible bsucc f.
Hypothesis REACH : allReached bsucc f.
Notation edge := (regionEdge bsucc).

Lemma stands_total l b : In b (lpBlocks l) -> exists n, standsFor l b n.
Proof.
  intros H.
  destruct (existsb (fun i => existsb (Nat.eqb b) (lpBlocks i)) (lpInner l)) eqn:E.
  - apply existsb_exists in E. destruct E as [i [I1 I2]]. apply existsb_exists in I2.
    destruct I2 as [b' [I3 I4]]. apply Nat.eqb_eq in I4. subst b'.
    exists (NLoop (lpHeader i)). left. eauto.
  - exists (NBlock b). right. repeat split; auto. intros i I1 I2.
    assert (X : existsb (fun i => existsb (Nat.eqb b) (lpBlocks i)) (lpInner l) = true).
    { apply existsb_exists. exists i. split; auto. apply existsb_exists. exists b.
      split; auto. apply Nat.eqb_refl. }
    congruence.
Qed.

(** What is known about the graph of a level. *)
Record levelGraph (l : loop) (g : graph) : Prop := {
  lgSucc : forall x y, In y (gSucc g x) <-> edge l x y;
  lgPred : forall x y, In x (gPred g y) <-> edge l x y;
  lgFirst : hd_error (gNodes g) = Some NEntry;
  lgLast : last (gNodes g) NEntry = NExit;
  lgLatch : hasLatch g = true <-> exists b, In b (lpBlocks l) /\ jumpsBack bsucc l b;
  lgNodes : forall n, In n (gNodes g) <->
      n = NEntry \/ n = NExit \/
      (n = NLatch /\ exists b, In b (lpBlocks l) /\ jumpsBack bsucc l b) \/
      (exists i, In i (lpInner l) /\ n = NLoop (lpHeader i)) \/
      (exists b, In b (lpBlocks l) /\ n = NBlock b /\
         forall i, In i (lpInner l) -> ~ In b (lpBlocks i));
  lgReached : forall n, In n (gNodes g) -> walk (gSucc g) NEntry n
}.
Lemma build_level l : nested f l ->
  exists g, buildLevel bsucc bpred shuffle l = Some g /\ levelGraph l g.
Proof.
  intros N. pose proof (NO l N) as OK.
  destruct (C46_nodes bsucc bpred shuffle l SH OK) as [g [E [ND [HD [LA NI]]]]].
  destruct (C46_edges bsucc bpred shuffle l SH OK) as [g' [E' [S [P _]]]].
  rewrite E in E'. injection E' as <-.
  destruct (C46_no_unreachable_nodes bsucc bpred shuffle l SH OK) as [g' [E' R]].
  - apply REACH; auto.
  - intros i Hi. apply REACH. eapply nested_inner; eauto.
  - rewrite E in E'. injection E' as <-. exists g. split; auto. split; auto.
    + intros x y. rewrite <- S. apply P.
    + unfold hasLatch. rewrite existsb_exists. split.
      * intros [n [I1 I2]]. destruct n; try discriminate. apply NI in I1.
        destruct I1 as [?|[?|[[_ ?]|[[? [_ ?]]|[? [_ [? _]]]]]]]; try discriminate; auto.
      * intros Q. exists NLatch. split; auto. apply NI. auto.
Qed.

Lemma edge_nodes l g x y : nested f l -> levelGraph l g -> edge l x y ->
  In x (gNodes g) /\ In y (gNodes g).
Proof.
  intros N G E. pose proof (NO l N) as OK. pose proof (lgNodes _ _ G) as NI.
  assert (ST : forall b n, standsFor l b n -> In n (gNodes g)).
  { intros b n [[i [I1 [I2 ->]]]|[I1 [I2 ->]]]; apply NI; [right; right; right; left; eauto|].
    right; right; right; right. eauto. }
  inversion E as [y' S|b c x' y' S1 S2 _ _ _|b x' S J|b x' S J|_|i I1 _]; subst.
  - split; [apply NI; auto|eauto].
  - split; eauto.
  - split; [eauto|]. apply NI. right; right; left. split; auto. exists b. split; auto.
    eapply standsFor_in; eauto.
  - split; [eauto|]. apply NI. auto.
  - split; apply NI; auto.
  - split; apply NI; [right; right; right; left; eauto|auto].
Qed.
Lemma stands_not l b n : standsFor l b n -> n <> NEntry /\ n <> NExit /\ n <> NLatch.
Proof. intros [[i [_ [_ ->]]]|[_ [_ ->]]]; repeat split; discriminate. Qed.
Lemma edge_entry l x : ~ edge l x NEntry.
Proof.
  intros E. inversion E; subst;
    match goal with H : standsFor _ _ NEntry |- _ => apply stands_not in H; tauto end.
Qed.
Lemma edge_exit l y : ~ edge l NExit y.
Proof.
  intros E. inversion E; subst;
    match goal with H : standsFor _ _ NExit |- _ => apply stands_not in H; tauto end.
Qed.
Lemma edge_latch l y : ~ edge l NLatch y.
Proof.
  intros E. inversion E; subst;
    match goal with H : standsFor _ _ NLatch |- _ => apply stands_not in H; tauto end.
Qed.

(** ** Forward *)
Lemma forward_children l g k :
  levelGraph l g -> gtChildren DForward (regionOf g) k = map code (gPred g (decode k)).
Proof. reflexivity. Qed.
Lemma forward_entry l g : levelGraph l g -> gtEntry DForward (regionOf g) = code NEntry.
Proof.
  intros G. pose proof (lgFirst _ _ G) as H. simpl. destruct (gNodes g) as [|n ns]; [discriminate|].
  injection H as ->. reflexivity.
Qed.
Lemma backward_entry g : last (gNodes g) NEntry = NExit -> gtEntry DBackward (regionOf g) = code NExit.
Proof.
  simpl. intros H. induction (gNodes g) as [|n ns IH]; [discriminate|].
  simpl in *. destruct ns as [|m ns]; [now subst n|]. simpl in IH. apply IH. exact H.
Qed.
Lemma map_code_In k ns : In k (map code ns) <-> In (decode k) ns.
Proof.
  rewrite in_map_iff. split.
  - intros [n [<- H]]. now rewrite decode_code.
  - intros H. exists (decode k). split; auto. apply code_decode.
Qed.
Lemma walk_of_path l g a b : levelGraph l g ->
  path (gtInverseChildren DForward (regionOf g)) a b ->
  a = b \/ regionWalk bsucc l (decode a) (decode b).
Proof.
  intros G P. induction P as [a|a b c I P IH]; auto. right. simpl in I.
  apply map_code_In in I. apply (lgSucc _ _ G) in I.
  destruct IH as [->|IH]; [now apply rw_edge|eapply rw_next; eauto].
Qed.
Lemma path_of_walk l g n : levelGraph l g -> walk (gSucc g) NEntry n ->
  path (gtInverseChildren DForward (regionOf g)) (code NEntry) (code n).
Proof.
  intros G W. induction W as [|y z W IH H]; [constructor|].
  eapply path_snoc; [exact IH|]. simpl. apply map_code_In. now rewrite !decode_code.
Qed.

Theorem forward_level : forall l V (top boundary e : V) meet tf g,
  nested f l -> levelGraph l g ->
  exists s, solveK top boundary meet tf (gtChildren DForward (regionOf g)) e DForward
              (regionOf g) (fuelOf g) = Some s /\
    vVal s (code NEntry) = boundary /\
    (forall n, In n (gNodes g) -> n <> NEntry ->
       vArg s (code n) = fold_left (fun acc c => meet (vVal s (code c)) acc) (gPred g n) top /\
       vVal s (code n) = fst (tf (code n) (vArg s (code n)) top)) /\
    forall P : V -> Prop, P e -> P top -> P boundary ->
      (forall x y, P x -> P y -> P (meet x y)) ->
      (forall n v old, P v -> P old -> P (fst (tf n v old))) ->
      forall n, P (vVal s n) /\ P (vArg s n).
Proof.
  intros l V top boundary e meet tf g N G.
  pose proof (forward_entry l g G) as EN.
  destruct (solveK_ok V top boundary e meet tf DForward (regionOf g) (fuelOf g)
              (map code (gNodes g))) as [s [E [B [EQ INV]]]].
  - rewrite EN. simpl. rewrite ?decode_code. destruct (gPred g NEntry) as [|x r] eqn:Q; auto.
    exfalso. apply (edge_entry l x). apply (lgPred _ _ G). rewrite Q. now left.
  - intros a b. simpl. rewrite !map_code_In. rewrite (lgPred _ _ G), (lgSucc _ _ G). tauto.
  - rewrite EN. intros b P [c [I P']].
    apply (proj1 RED l (decode b) N). simpl in I. apply map_code_In in I. apply (lgSucc _ _ G) in I.
    destruct (walk_of_path l g c b G P') as [->|W]; [now apply rw_edge|eapply rw_next; eauto].
  - intros a b Ha Hb. simpl in Hb. apply map_code_In in Hb. apply map_code_In.
    apply (lgSucc _ _ G) in Hb. eapply edge_nodes; eauto.
  - rewrite EN. apply in_map. apply (lgNodes _ _ G). auto.
  - rewrite map_length. unfold fuelOf. lia.
  - exists s. split; auto. rewrite EN in *. split; auto. split; auto.
    intros n In1 NE. destruct (EQ (code n)) as [E1 E2].
    + apply path_of_walk with l; auto. apply (lgReached _ _ G); auto.
    + intros Q. apply NE. now apply code_inj.
    + split; auto. rewrite E1 at 1. unfold gatherK. simpl. rewrite decode_code.
      clear. generalize top. induction (gPred g n) as [|c cs IH]; intros a; simpl; auto.
Qed.

(** ** Backward: the graph with the edge from the latch to the exit *)
Definition edgeX (l : loop) (x y : rnode) : Prop :=
  edge l x y \/ (x = NLatch /\ y = NExit /\ exists b, In b (lpBlocks l) /\ jumpsBack bsucc l b).
Lemma rnode_eqb_eq a b : rnode_eqb a b = true <-> a = b.
Proof.
  destruct a, b; simpl; try (split; congruence); rewrite Nat.eqb_eq; split; congruence.
Qed.
Lemma push_In adj n m x y : In y (push adj n m x) <-> In y (adj x) \/ (x = n /\ y = m).
Proof.
  unfold push. destruct (rnode_eqb x n) eqn:E.
  - apply rnode_eqb_eq in E. subst x. rewrite in_app_iff. simpl. intuition.
  - assert (x <> n) by (intros ->; rewrite (proj2 (rnode_eqb_eq n n) eq_refl) in E; discriminate).
    intuition.
Qed.
Lemma expand_edges l g : levelGraph l g ->
  (forall x y, In y (gSucc (expandLive g) x) <-> edgeX l x y) /\
  (forall x y, In x (gPred (expandLive g) y) <-> edgeX l x y) /\
  gNodes (expandLive g) = gNodes g.
Proof.
  intros G. unfold expandLive, edgeX. pose proof (lgLatch _ _ G) as L.
  destruct (hasLatch g); simpl; (split; [|split; [|reflexivity]]); intros x y;
    rewrite ?push_In, ?(lgSucc _ _ G), ?(lgPred _ _ G).
  - intuition.
  - intuition.
  - split; auto. intros [H|[_ [_ H]]]; auto. apply L in H. discriminate.
  - split; auto. intros [H|[_ [_ H]]]; auto. apply L in H. discriminate.
Qed.

(* The innermost loop of the block that jumps to itself. *)
Lemma self_jump l b : nested f l -> standsFor l b (NBlock b) -> In b (bsucc b) -> b = lpHeader l.
Proof.
  intros N S J. destruct S as [[i [_ [_ ?]]]|[I1 [I2 _]]]; [discriminate|].
  assert (IF : In b (lpBlocks f)).
  { clear -N NO I1. induction N as [|k i N IH I]; auto. apply IH.
    apply (loInside _ _ _ (NO k N) i I). exact I1. }
  destruct (proj2 RED b IF J) as [k [Nk Hk]].
  destruct (proj1 (C46_innermost bsucc bpred f NO) b IF) as [k0 [_ [_ U]]].
  assert (l = k0). { apply U. repeat split; auto. }
  assert (k = k0).
  { apply U. repeat split; auto.
    - rewrite <- Hk. apply (loHeader _ _ _ (NO k Nk)).
    - intros i Hi. rewrite <- Hk. apply (loOwn _ _ _ (NO k Nk) i Hi). }
  congruence.
Qed.
(* Control goes on from each node but the exit. *)
Lemma block_next l b n s : nested f l -> standsFor l b n -> In s (bsucc b) ->
  (exists i, In i (lpInner l) /\ n = NLoop (lpHeader i) /\ In b (lpBlocks i) /\ In s (lpBlocks i)) \/
  (s = lpHeader l /\ edge l n NLatch) \/
  (~ In s (lpBlocks l) /\ edge l n NExit) \/
  (exists y, In s (lpBlocks l) /\ s <> lpHeader l /\ standsFor l s y /\ n <> y /\ edge l n y).
Proof.
  intros N S J. pose proof (NO l N) as OK.
  destruct (Nat.eq_dec s (lpHeader l)) as [->|NH].
  { right; left. split; auto. eapply re_back; eauto. }
  destruct (in_dec Nat.eq_dec s (lpBlocks l)) as [I|I].
  2:{ right; right; left. split; auto. eapply re_exit; eauto. right. eauto. }
  destruct (stands_total l s I) as [y Sy].
  destruct (rnode_dec n y) as [->|NE].
  - destruct S as [[i [I1 [I2 ->]]]|[I1 [I2 ->]]].
    + left. exists i. repeat split; auto.
      destruct Sy as [[j [J1 [J2 J3]]]|[_ [_ ?]]]; [|discriminate].
      injection J3 as J3.
      assert (i = j).
      { clear -J3 I1 J1 OK. pose proof (loHeads _ _ _ OK) as ND. revert ND J3 I1 J1.
        induction (lpInner l) as [|k ks IH]; simpl; [tauto|]. intros ND J3 [->|I1] [->|J1]; auto.
        - inversion ND; subst. exfalso. apply H1. rewrite J3. now apply in_map.
        - inversion ND; subst. exfalso. apply H1. rewrite <- J3. now apply in_map.
        - inversion ND; subst. auto. }
      now subst j.
    + exfalso. destruct Sy as [[j [_ [_ ?]]]|[_ [_ Q]]]; [discriminate|]. injection Q as <-.
      apply NH. apply self_jump; auto. right. auto.
  - right; right; right. exists y. repeat split; auto. eapply re_flow; eauto.
Qed.
Lemma node_next l g n : nested f l -> levelGraph l g -> In n (gNodes g) -> n <> NExit ->
  exists y, edgeX l n y.
Proof.
  intros N G In1 NE. pose proof (NO l N) as OK. apply (lgNodes _ _ G) in In1.
  assert (ONE : forall b, standsFor l b n -> (bsucc b = [] \/
      (exists s, In s (bsucc b) /\
        ~ exists i, In i (lpInner l) /\ n = NLoop (lpHeader i) /\ In b (lpBlocks i) /\ In s (lpBlocks i))) ->
      exists y, edgeX l n y).
  { intros b S [E|[s [J Q]]].
    - exists NExit. left. eapply re_exit; eauto. now left.
    - destruct (block_next l b n s N S J) as [X|[[_ X]|[[_ X]|[y [_ [_ [_ [_ X]]]]]]]]; [tauto| | |];
        eexists; left; eauto. }
  destruct In1 as [->|[?|[[-> J]|[[i [I1 ->]]|[b [I1 [-> I2]]]]]]]; [|tauto| | |].
  - destruct (stands_total l (lpHeader l) (loHeader _ _ _ OK)) as [y S].
    exists y. left. now apply re_entry.
  - exists NExit. right. auto.
  - (* an inner loop *)
    set (out := fun b => match bsucc b with [] => true
                         | ss => existsb (fun s => negb (existsb (Nat.eqb s) (lpBlocks i))) ss end).
    destruct (existsb out (lpBlocks i)) eqn:E.
    + apply existsb_exists in E. destruct E as [b [Ib Ob]].
      apply (ONE b); [left; eauto|]. unfold out in Ob.
      destruct (bsucc b) as [|s0 ss0] eqn:Es; [now left|right]. rewrite <- Es in *.
      apply existsb_exists in Ob. destruct Ob as [s [Is Os]]. exists s. split; [exact Is|].
      intros [j [J1 [J2 [_ J3]]]]. injection J2 as J2.
      assert (i = j).
      { clear -J2 I1 J1 OK. pose proof (loHeads _ _ _ OK) as ND. revert ND J2 I1 J1.
        induction (lpInner l) as [|k ks IH]; simpl; [tauto|]. intros ND J3 [->|I1] [->|J1]; auto.
        - inversion ND; subst. exfalso. apply H1. rewrite J3. now apply in_map.
        - inversion ND; subst. exfalso. apply H1. rewrite <- J3. now apply in_map.
        - inversion ND; subst. auto. }
      subst j. apply negb_true_iff in Os.
      assert (X : existsb (Nat.eqb s) (lpBlocks i) = true).
      { apply existsb_exists. exists s. split; auto. apply Nat.eqb_refl. }
      congruence.
    + exists NExit. left. apply re_trap; auto. intros b Ib.
      assert (O : out b = false).
      { destruct (out b) eqn:O; auto. assert (existsb out (lpBlocks i) = true); [|congruence].
        apply existsb_exists. eauto. }
      unfold out in O. destruct (bsucc b) as [|s0 ss0] eqn:Es; [discriminate|]. split; [discriminate|].
      rewrite <- Es in *. intros s Is.
      destruct (existsb (Nat.eqb s) (lpBlocks i)) eqn:X.
      * apply existsb_exists in X. destruct X as [s' [X1 X2]]. apply Nat.eqb_eq in X2. now subst.
      * exfalso. assert (Y : existsb (fun s => negb (existsb (Nat.eqb s) (lpBlocks i))) (bsucc b) = true).
        { apply existsb_exists. exists s. split; auto. now rewrite X. }
        congruence.
  - apply (ONE b); [right; auto|].
    destruct (bsucc b) as [|s ss] eqn:E; auto. right. exists s. split; [now left|].
    intros [i [_ [? _]]]. discriminate.
Qed.

Lemma edgeX_nodes l g x y : nested f l -> levelGraph l g -> edgeX l x y ->
  In x (gNodes g) /\ In y (gNodes g).
Proof.
  intros N G [E|[-> [-> J]]]; [eapply edge_nodes; eauto|].
  split; apply (lgNodes _ _ G); auto.
Qed.
Inductive walkX (l : loop) : rnode -> rnode -> Prop :=
| wx_here x : walkX l x x
| wx_next x y z : edgeX l x y -> walkX l y z -> walkX l x z.
Lemma walkX_cases l x y : walkX l x y ->
  x = y \/ regionWalk bsucc l x y \/ y = NExit.
Proof.
  intros W. induction W as [x|x y z E W IH]; auto.
  destruct E as [E|[-> [-> _]]].
  - destruct IH as [->|[IH| ->]]; auto; right; left; [now apply rw_edge|eapply rw_next; eauto].
  - right; right. inversion W as [|? ? ? E' ?]; subst; auto. exfalso.
    destruct E' as [E'|[? _]]; [eapply edge_exit; eauto|discriminate].
Qed.
Lemma edgeX_exit l y : ~ edgeX l NExit y.
Proof. intros [E|[? _]]; [eapply edge_exit; eauto|discriminate]. Qed.
Lemma edgeX_acyclic l x y : nested f l -> edgeX l x y -> ~ walkX l y x.
Proof.
  intros N E W. destruct (walkX_cases l y x W) as [->|[R| ->]].
  - destruct E as [E|[-> [E _]]]; [|discriminate]. exact (proj1 RED l x N (rw_edge bsucc l x x E)).
  - destruct E as [E|[-> [-> _]]].
    + apply (proj1 RED l x N). eapply rw_next; eauto.
    + inversion R; subst; eapply edge_exit; eauto.
  - eapply edgeX_exit; eauto.
Qed.
Lemma walkX_trans l x y z : walkX l x y -> walkX l y z -> walkX l x z.
Proof. intros W. induction W; auto. intros W'. eapply wx_next; eauto. Qed.
(* Each node reaches the exit. *)
Lemma reaches_exit l g n : nested f l -> levelGraph l g -> In n (gNodes g) -> walkX l n NExit.
Proof.
  intros N G In1.
  assert (K : forall k n, In n (gNodes g) -> walkX l n NExit \/
     exists ns, length ns = k /\ NoDup ns /\ incl ns (gNodes g) /\
                forall m, In m ns -> walkX l n m).
  { induction k as [|k IH]; intros m Hm.
    - right. exists []. repeat split; [constructor|intros x []|intros x []].
    - destruct (rnode_dec m NExit) as [->|NE]; [left; constructor|].
      destruct (node_next l g m N G Hm NE) as [y E].
      destruct (IH y) as [W|[ns [L [ND [IC W]]]]].
      + eapply edgeX_nodes; eauto.
      + left. eapply wx_next; eauto.
      + right. exists (m :: ns). split; [simpl; congruence|]. split; [|split].
        * constructor; auto. intros I. eapply edgeX_acyclic; eauto.
        * intros z [<-|Hz]; auto.
        * intros z [<-|Hz]; [constructor|]. eapply wx_next; eauto. }
  destruct (K (S (length (gNodes g))) n In1) as [W|[ns [L [ND [IC _]]]]]; auto.
  pose proof (NoDup_incl_length ND IC). lia.
Qed.

Theorem backward_level : forall l V (top boundary e : V) meet tf g,
  nested f l -> levelGraph l g ->
  exists s, solveK top boundary meet tf (gtChildren DBackward (regionOf (expandLive g))) e DBackward
              (regionOf (expandLive g)) (fuelOf g) = Some s /\
    vVal s (code NExit) = boundary /\
    (forall n, In n (gNodes g) -> n <> NExit ->
       vArg s (code n) = fold_left (fun acc c => meet (vVal s (code c)) acc) (gSucc (expandLive g) n) top /\
       vVal s (code n) = fst (tf (code n) (vArg s (code n)) top)) /\
    forall P : V -> Prop, P e -> P top -> P boundary ->
      (forall x y, P x -> P y -> P (meet x y)) ->
      (forall n v old, P v -> P old -> P (fst (tf n v old))) ->
      forall n, P (vVal s n) /\ P (vArg s n).
Proof.
  intros l V top boundary e meet tf g N G.
  destruct (expand_edges l g G) as [XS [XP XN]].
  assert (EN : gtEntry DBackward (regionOf (expandLive g)) = code NExit).
  { apply backward_entry. rewrite XN. apply (lgLast _ _ G). }
  assert (WP : forall a b, walkX l a b ->
    path (gtInverseChildren DBackward (regionOf (expandLive g))) (code b) (code a)).
  { intros a b W. induction W as [x|x y z E W IH]; [constructor|].
    eapply path_snoc; [exact IH|]. simpl. apply map_code_In. rewrite !decode_code. now apply XP. }
  assert (PW : forall a b, path (gtInverseChildren DBackward (regionOf (expandLive g))) a b ->
    walkX l (decode b) (decode a)).
  { intros a b P. induction P as [a|a b c I P IH]; [constructor|]. simpl in I.
    apply map_code_In in I. apply XP in I. eapply walkX_trans; [exact IH|].
    eapply wx_next; [exact I|constructor]. }
  destruct (solveK_ok V top boundary e meet tf DBackward (regionOf (expandLive g)) (fuelOf g)
              (map code (gNodes g))) as [s [E [B [EQ INV]]]].
  - rewrite EN. simpl. destruct (gSucc (expandLive g) NExit) as [|x r] eqn:Q; auto.
    exfalso. apply (edgeX_exit l x). apply XS. rewrite Q. now left.
  - intros a b. simpl. rewrite !map_code_In. rewrite XP, XS. tauto.
  - rewrite EN. intros b P [c [I P']]. simpl in I. apply map_code_In in I. apply XP in I.
    apply PW in P'. exact (edgeX_acyclic l _ _ N I P').
  - intros a b Ha Hb. simpl in Hb. apply map_code_In in Hb. apply map_code_In.
    apply XP in Hb. exact (proj1 (edgeX_nodes l g _ _ N G Hb)).
  - rewrite EN. apply in_map. apply (lgNodes _ _ G). auto.
  - rewrite map_length. unfold fuelOf. lia.
  - exists s. split; auto. rewrite EN in *. split; auto. split; auto.
    intros n In1 NE. destruct (EQ (code n)) as [E1 E2].
    + apply WP. apply reaches_exit with g; auto.
    + intros Q. apply NE. now apply code_inj.
    + split; auto. rewrite E1 at 1. unfold gatherK. simpl. rewrite decode_code.
      clear. generalize top. induction (gSucc (expandLive g) n) as [|c cs IH]; intros a; simpl; auto.
Qed.
End Level.
