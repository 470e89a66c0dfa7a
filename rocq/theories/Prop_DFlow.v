(* C01-C04: the data-flow solvers. *)
From Coq Require Import List Arith Bool Lia Wf_nat.
Import ListNotations.
From Verif Require Import DFlowModel DFlowSpec DFlowProof DFlowGraphProof.

(* ------------------------------------------------------------------ C01 *)

(* When the iterative solver returns, the boundary condition holds at the entry
   and the data-flow equation holds at each other node of the graph. No
   condition on the graph, on the order of nodes or on the initial content of
   the value storage; the framework only has to report changes. *)
Theorem C01_returns_fixpoint :
  forall V (le : V -> V -> Prop) (F : framework V) children nodes entry
         fuel s0 s,
  semilattice le (fwTop F) (fwMeet F) ->
  respectful le (fwTransfer F) ->
  changedSound le (fwChanged F) ->
  ~ In entry nodes ->
  solveIteratively F children nodes entry fuel s0 = Some s ->
  s entry = fwBoundary F /\
  forall n, In n nodes -> equationAt le (fwTransfer F) children s n.
Proof.
  intros V le F children nodes entry fuel s0 s SL R CS NE H.
  unfold solveIteratively in H. split.
  - apply iterate_inv with (P := fun s => s entry = fwBoundary F) in H; auto.
    + intros t t' b Ht E. unfold onePass in E.
      rewrite (pass_outside F children nodes (t, false) t' b entry E NE).
      exact Ht.
    + apply init_entry.
  - intros n In1. apply iterate_last in H as [t E]. unfold onePass in E.
    apply (equationAt_gather le F SL).
    eapply pass_fixpoint; eauto.
Qed.
Print Assumptions C01_returns_fixpoint.

(* The result is the best one: each assignment t which does not exceed the
   boundary condition at the entry and the transfer function of the meet at
   the other nodes (in particular, each solution of the equations) is below
   the result. *)
Theorem C01_returns_greatest :
  forall V (le : V -> V -> Prop) (F : framework V) children nodes entry
         fuel s0 s t,
  semilattice le (fwTop F) (fwMeet F) ->
  monotone le (fwTransfer F) ->
  ~ In entry nodes ->
  (forall n, In n nodes -> incl (children n) (entry :: nodes)) ->
  solveIteratively F children nodes entry fuel s0 = Some s ->
  le (t entry) (fwBoundary F) ->
  (forall n, In n nodes ->
     exists m, isMeetOf le t (children n) m /\ le (t n) (fwTransfer F n m)) ->
  forall n, In n (entry :: nodes) -> le (t n) (s n).
Proof.
  intros V le F children nodes entry fuel s0 s t SL M NE CL H TE TN.
  unfold solveIteratively in H.
  apply iterate_inv with
    (P := fun s => forall n, In n (entry :: nodes) -> le (t n) (s n)) in H.
  - exact H.
  - intros s1 s2 b H1 E. unfold onePass in E.
    apply (pass_above le F children SL (entry :: nodes) t nodes (s1, false)
             s2 b); auto.
    intros n In1. destruct (TN n In1) as [m [Hm L]].
    eapply slTrans; [exact SL|exact L|]. apply M.
    apply (gather_meet le F SL). apply Hm.
  - intros n [<-|In1].
    + rewrite init_entry. exact TE.
    + rewrite init_node; auto.
      * apply (slTop _ _ _ SL).
      * intro; subst; tauto.
Qed.
Print Assumptions C01_returns_greatest.

(* The solver returns if there is no infinite strictly descending chain of
   values. *)
Theorem C01_terminates :
  forall V (le : V -> V -> Prop) (F : framework V) children nodes entry s0,
  semilattice le (fwTop F) (fwMeet F) ->
  monotone le (fwTransfer F) ->
  changedExact le (fwChanged F) ->
  well_founded (below le) ->
  ~ In entry nodes ->
  exists fuel s, solveIteratively F children nodes entry fuel s0 = Some s.
Proof.
  intros V le F children nodes entry s0 SL M CE W NE.
  unfold solveIteratively. apply (iterate_terminates le); auto.
  intros n In1. rewrite init_node; auto.
  - apply (slTop _ _ _ SL).
  - intro; subst; tauto.
Qed.
Print Assumptions C01_terminates.

(* With a rank which counts the height of values the number of passes over the
   graph is at most 1 + (number of nodes) * (height of the lattice). *)
Theorem C01_pass_bound :
  forall V (le : V -> V -> Prop) (F : framework V) children nodes entry s0
         (rank : V -> nat),
  semilattice le (fwTop F) (fwMeet F) ->
  monotone le (fwTransfer F) ->
  changedExact le (fwChanged F) ->
  (forall x y, le x y -> rank x <= rank y) ->
  (forall x y, below le x y -> rank x < rank y) ->
  ~ In entry nodes ->
  exists s, solveIteratively F children nodes entry
              (S (length nodes * rank (fwTop F))) s0 = Some s.
Proof.
  intros V le F children nodes entry s0 rank SL M CE R R' NE.
  unfold solveIteratively. apply (iterate_bound le) with (rank := rank); auto.
  - intros n In1. rewrite init_node; auto.
    + apply (slTop _ _ _ SL).
    + intro; subst; tauto.
  - apply Nat.lt_succ_r.
    assert (G : forall ns, incl ns nodes ->
      total rank (initValues F entry s0 nodes) ns
      <= length ns * rank (fwTop F)).
    { induction ns as [|n ns IH]; intros I; [simpl; auto|].
      unfold total in *. cbn [map list_sum fold_right length Nat.mul].
      assert (In n nodes) by (apply I; now left).
      rewrite init_node; auto; [|intro; subst; tauto].
      apply Nat.add_le_mono_l. apply IH. intros x Hx. apply I. now right. }
    apply G. apply incl_refl.
Qed.
Print Assumptions C01_pass_bound.

(* A concrete framework: "the fact holds on every path" with an infinite family
   of facts would also do; here one fact, killed in node 2 of a loop. *)
Definition impb (x y : bool) : Prop := x = true -> y = true.
Definition killF (k : node) : framework bool :=
  mkFwk bool true true (fun l r => andb l r)
        (fun n v => if Nat.eqb n k then false else v)
        (fun _ x y => negb (Bool.eqb x y)).
Definition loopSuccs (n : node) : list node :=
  match n with 0 => [1] | 1 => [2] | 2 => [1; 3] | _ => [] end.
Definition loopPreds (n : node) : list node :=
  match n with 1 => [0; 2] | 2 => [1] | 3 => [2] | _ => [] end.

Lemma killF_ok : forall k,
  semilattice impb (fwTop (killF k)) (fwMeet (killF k)) /\
  monotone impb (fwTransfer (killF k)) /\
  changedExact impb (fwChanged (killF k)) /\
  well_founded (below impb).
Proof.
  intros k. split; [|split; [|split]].
  - constructor; unfold impb; simpl; auto.
    + intros x y. destruct x; auto; discriminate.
    + intros x y. destruct x, y; auto; discriminate.
    + intros x y z. destruct x, y, z; auto; discriminate.
  - intros n x y. unfold impb. simpl. destruct (n =? k); auto.
  - intros n x y. unfold eqv, impb. simpl. destruct x, y; simpl;
      intuition discriminate.
  - assert (F0 : Acc (below impb) false).
    { constructor. intros y [A B]. exfalso. apply B. intro; discriminate. }
    intros x. destruct x; auto. constructor. intros y [A B].
    destruct y; auto. exfalso. apply B. intro; auto.
Qed.

Example C01_nonvacuous :
  ~ In 0 [1; 2; 3] /\
  (forall n, In n [1; 2; 3] -> incl (loopPreds n) (0 :: [1; 2; 3])) /\
  exists s, solveIteratively (killF 2) loopPreds [1; 2; 3] 0 4
              (fun _ => true) = Some s /\
            s 0 = true /\ s 1 = false /\ s 2 = false /\ s 3 = false.
Proof.
  split; [simpl; intuition discriminate|]. split.
  - intros n Hn. simpl in Hn.
    destruct Hn as [<-|[<-|[<-|[]]]]; intros x Hx; simpl in *; tauto.
  - eexists. repeat split.
Qed.

(* ------------------------------------------------------------------ C02 *)

(* On an acyclic graph the single pass returns, evaluates each reachable node
   exactly once and after its predecessors, and the equations hold at each
   reachable node. The transfer functions are arbitrary. *)
Theorem C02_single_pass :
  forall V (le : V -> V -> Prop) (F : framework V) preds succs entry U fuel s0,
  semilattice le (fwTop F) (fwMeet F) ->
  mutuallyInverse preds succs ->
  acyclicFrom succs entry ->
  closedUnder succs U -> In entry U -> length U < fuel ->
  exists s,
    solveTopologically F preds entry succs fuel s0 = Some s /\
    s entry = fwBoundary F /\
    forall n, path succs entry n -> n <> entry ->
      equationAt le (fwTransfer F) preds s n.
Proof.
  intros V le F preds succs entry U fuel s0 SL INV AC CU IE L.
  unfold solveTopologically.
  destruct (rpo_fuel succs U fuel entry CU IE L) as [ord E]. rewrite E.
  destruct (rpo_ok succs fuel entry ord AC E) as [H1 [H2 [H3 H4]]].
  destruct ord as [|e rest]; [discriminate|].
  simpl in H1. inversion H1; subst e. clear H1.
  apply NoDup_cons_iff in H2 as [N2 D2].
  assert (T2 : topo succs rest).
  { intros l1 u l2 Q w Hw. apply (H3 (entry :: l1) u l2); auto.
    simpl. now rewrite Q. }
  eexists. split; [reflexivity|]. cbn [tl].
  change (fold_left
    (fun s n => setValue s n (fwTransfer F n (gather F preds s n))) rest
    (initValues F entry s0 rest))
  with (evalAll F preds rest (initValues F entry s0 rest)).
  split.
  - rewrite evalAll_other by auto. apply init_entry.
  - intros n P NE. apply H4 in P. destruct P as [<-|P]; [congruence|].
    apply (equationAt_gather le F SL).
    rewrite <- (evalAll_eq F preds succs INV) by auto.
    now apply (eqv_refl le F).
Qed.
Print Assumptions C02_single_pass.

(* The order of evaluation: every reachable node once, and no node before one
   of its predecessors. *)
Theorem C02_order :
  forall succs entry U fuel,
  acyclicFrom succs entry ->
  closedUnder succs U -> In entry U -> length U < fuel ->
  exists ord, reversePostOrder entry succs fuel = Some ord /\
    NoDup ord /\ (forall n, In n ord <-> path succs entry n) /\
    hd_error ord = Some entry /\
    forall before p n after, ord = before ++ n :: after ->
      path succs entry p -> In n (succs p) -> In p before.
Proof.
  intros succs entry U fuel AC CU IE L.
  destruct (rpo_fuel succs U fuel entry CU IE L) as [ord E].
  destruct (rpo_ok succs fuel entry ord AC E) as [H1 [H2 [H3 H4]]].
  exists ord. split; auto. split; auto. split; auto. split; auto.
  intros before p n after Q P Hn. apply H4 in P.
  subst ord. apply in_app_or in P as [P|P]; auto. exfalso.
  pose proof (NoDup_remove_2 _ _ _ H2) as ND.
  destruct P as [<-|P].
  - (* self loop *)
    apply (AC n).
    + apply H4. apply in_or_app. right. now left.
    + exists n. split; auto. constructor.
  - destruct (in_split p after P) as [l1 [l2 Q]]. subst after.
    assert (I : In n l2).
    { apply (H3 (before ++ n :: l1) p l2); auto.
      now rewrite <- app_assoc. }
    apply ND. apply in_or_app. right. apply in_or_app. right. now right.
Qed.
Print Assumptions C02_order.

(* On an acyclic graph without unreachable nodes the equations have only one
   solution, so the single pass and the iterative solver agree. *)
Theorem C02_unique :
  forall V (le : V -> V -> Prop) (F : framework V) preds succs entry U s t,
  semilattice le (fwTop F) (fwMeet F) ->
  respectful le (fwTransfer F) ->
  mutuallyInverse preds succs ->
  acyclicFrom succs entry ->
  closedUnder succs U -> In entry U ->
  (forall p n, path succs entry n -> In p (preds n) -> path succs entry p) ->
  s entry = t entry ->
  (forall n, path succs entry n -> n <> entry ->
     equationAt le (fwTransfer F) preds s n /\
     equationAt le (fwTransfer F) preds t n) ->
  forall n, path succs entry n -> eqv le (s n) (t n).
Proof.
  intros V le F preds succs entry U s t SL R INV AC CU IE UN SE EQ.
  destruct (C02_order succs entry U (S (length U)) AC CU IE)
    as [ord [_ [ND [MEM [HD ORD]]]]]; [lia|].
  assert (G : forall done todo, ord = done ++ todo ->
    forall n, In n done -> eqv le (s n) (t n)).
  { induction done as [|d done IH] using rev_ind; intros todo Q n Hn.
    - destruct Hn.
    - rewrite <- app_assoc in Q. simpl in Q.
      apply in_app_or in Hn as [Hn|[<-|[]]].
      + eapply IH; eauto.
      + destruct (Nat.eq_dec d entry) as [->|NE].
        { rewrite SE. now apply (eqv_refl le F). }
        assert (Pd : path succs entry d).
        { apply MEM. rewrite Q. apply in_or_app. right. now left. }
        destruct (EQ d Pd NE) as [E1 E2].
        apply (equationAt_gather_inv le F SL) in E1; auto.
        apply (equationAt_gather_inv le F SL) in E2; auto.
        eapply (eqv_trans le F); [exact SL|exact E1|].
        eapply (eqv_trans le F); [exact SL| |apply eqv_sym; exact E2].
        apply R. apply (gather_eqv le F SL). intros p Hp.
        eapply IH; [exact Q|]. eapply ORD; [exact Q| |].
        * eapply UN; eauto.
        * now apply INV. }
  intros n P. apply MEM in P. apply (G ord []); auto. now rewrite app_nil_r.
Qed.
Print Assumptions C02_unique.

Definition diaSuccs (n : node) : list node :=
  match n with 0 => [1; 2] | 1 => [3] | 2 => [1; 3] | _ => [] end.
Definition diaPreds (n : node) : list node :=
  match n with 1 => [0; 2] | 2 => [0] | 3 => [1; 2] | _ => [] end.

(* Decides acyclicity of a concrete graph by the proved back-edge search. *)
Lemma acyclic_by_search : forall next entry fuel vis,
  findBackEdge next fuel entry = SNone vis -> acyclicFrom next entry.
Proof.
  intros next entry fuel vis H.
  pose proof (findBackEdge_ok next fuel entry) as P. now rewrite H in P.
Qed.

Example C02_nonvacuous :
  mutuallyInverse diaPreds diaSuccs /\ acyclicFrom diaSuccs 0 /\
  closedUnder diaSuccs [0; 1; 2; 3] /\
  reversePostOrder 0 diaSuccs 5 = Some [0; 2; 1; 3] /\
  exists s, solveTopologically (killF 2) diaPreds 0 diaSuccs 5 (fun _ => true)
              = Some s /\ s 1 = false /\ s 3 = false.
Proof.
  split; [|split; [|split; [|split]]].
  - intros a b. unfold diaPreds, diaSuccs.
    destruct a as [|[|[|[|a]]]]; destruct b as [|[|[|[|b]]]]; simpl;
      intuition discriminate.
  - eapply acyclic_by_search with (fuel := 9). reflexivity.
  - intros a b Ha Hb. simpl in Ha.
    destruct Ha as [<-|[<-|[<-|[<-|[]]]]]; simpl in *; tauto.
  - reflexivity.
  - eexists. repeat split.
Qed.

(* ------------------------------------------------------------------ C03 *)

(* A reported edge is an edge of the graph which is reachable from the entry
   and closes a cycle. *)
Theorem C03_found_is_back_edge :
  forall next fuel entry u v,
  findBackEdge next fuel entry = SFound u v ->
  path next entry u /\ In v (next u) /\ path next v u /\ onCycle next u.
Proof.
  intros next fuel entry u v H.
  pose proof (findBackEdge_ok next fuel entry) as P. rewrite H in P.
  destruct P as [A [B C]]. repeat split; auto. exists v. now split.
Qed.
Print Assumptions C03_found_is_back_edge.

(* The search always finishes on a finite graph and its answer is exact. *)
Theorem C03_exact :
  forall next entry U fuel,
  closedUnder next U -> In entry U -> length U < fuel ->
  (exists u v, findBackEdge next fuel entry = SFound u v) <->
  (exists n, path next entry n /\ onCycle next n).
Proof.
  intros next entry U fuel C I L.
  pose proof (findBackEdge_ok next fuel entry) as P.
  pose proof (findBackEdge_fuel next U fuel entry C I L) as NF.
  destruct (findBackEdge next fuel entry) as [|u v|vis]; [congruence| |].
  - destruct P as [A [B D]]. split; [|eauto]. intros _.
    exists u. split; auto. exists v. now split.
  - split; [intros [u [v Q]]; discriminate|].
    intros [n [Pn Cn]]. exfalso. now apply (P n Pn).
Qed.
Print Assumptions C03_exact.

Theorem C03_isDAG :
  forall next entry U fuel,
  closedUnder next U -> In entry U -> length U < fuel ->
  (isDAG next fuel entry = Some true <-> acyclicFrom next entry) /\
  (isDAG next fuel entry = Some false <-> ~ acyclicFrom next entry).
Proof.
  intros next entry U fuel C I L. unfold isDAG.
  pose proof (findBackEdge_ok next fuel entry) as P.
  pose proof (findBackEdge_fuel next U fuel entry C I L) as NF.
  destruct (findBackEdge next fuel entry) as [|u v|vis]; [congruence| |].
  - destruct P as [A [B D]].
    assert (N : ~ acyclicFrom next entry).
    { intros Q. apply (Q u A). exists v. now split. }
    split; split; intros Q; auto; try discriminate; tauto.
  - split; split; intros Q; auto; try discriminate; tauto.
Qed.
Print Assumptions C03_isDAG.

Example C03_nonvacuous :
  closedUnder loopSuccs [0; 1; 2; 3] /\
  findBackEdge loopSuccs 5 0 = SFound 2 1 /\
  isDAG diaSuccs 5 0 = Some true.
Proof.
  split; [|split; reflexivity].
  intros a b Ha Hb. simpl in Ha.
  destruct Ha as [<-|[<-|[<-|[<-|[]]]]]; simpl in *; tauto.
Qed.

(* ------------------------------------------------------------------ C04 *)

(* Full statement of C04: if the region solver returns s then the equations
   hold at each node of the region reached along the direction of the flow.
   Proved here: it is so if the region really is acyclic. *)
Theorem C04_acyclic_region_partial :
  forall V (le : V -> V -> Prop) (F : framework V) d r fuel s0 s U,
  semilattice le (fwTop F) (fwMeet F) ->
  respectful le (fwTransfer F) -> changedSound le (fwChanged F) ->
  mutuallyInverse (gtChildren d r) (gtInverseChildren d r) ->
  acyclicFrom (gtInverseChildren d r) (gtEntry d r) ->
  closedUnder (gtInverseChildren d r) U -> In (gtEntry d r) U ->
  length U < fuel ->
  ~ In (gtEntry d r) (gtNodes d r) ->
  (forall n, path (gtInverseChildren d r) (gtEntry d r) n ->
             n = gtEntry d r \/ In n (gtNodes d r)) ->
  solveRegion F d r fuel s0 = Some s ->
  s (gtEntry d r) = fwBoundary F /\
  forall n, path (gtInverseChildren d r) (gtEntry d r) n ->
    n <> gtEntry d r ->
    equationAt le (fwTransfer F) (gtChildren d r) s n.
Proof.
  intros V le F d r fuel s0 s U SL R CS INV AC CU IU L NE ALL H.
  unfold solveRegion in H.
  destruct (isDAG (gtChildren d r) fuel (gtEntry d r)) as [[|]|];
    try discriminate.
  - destruct (C02_single_pass V le F (gtChildren d r) (gtInverseChildren d r)
      (gtEntry d r) U fuel s0 SL INV AC CU IU L) as [s' [E [A B]]].
    rewrite E in H. inversion H; subst. split; auto.
  - destruct (C01_returns_fixpoint V le F _ _ _ _ _ _ SL R CS NE H) as [A B].
    split; auto. intros n Pn Nn. apply B. destruct (ALL n Pn); tauto.
Qed.
Print Assumptions C04_acyclic_region_partial.

(* The selection ignores the region: the entry has no incoming data, so the
   search for a back edge, which walks against the flow, finds nothing and the
   single pass is used always. *)
Theorem C04_always_single_pass :
  forall V (F : framework V) d r fuel s0,
  gtChildren d r (gtEntry d r) = [] ->
  solveRegion F d r (S fuel) s0 =
  solveTopologically F (gtChildren d r) (gtEntry d r)
                     (gtInverseChildren d r) (S fuel) s0.
Proof.
  intros V F d r fuel s0 H. unfold solveRegion.
  assert (E : isDAG (gtChildren d r) (S fuel) (gtEntry d r) = Some true).
  { unfold isDAG, findBackEdge. cbn [findBackEdgeFrom]. rewrite H.
    reflexivity. }
  now rewrite E.
Qed.
Print Assumptions C04_always_single_pass.

(* An irreducible region: 0 -> 1, 0 -> 2, 1 -> 2, 2 -> 1, 2 -> 3. *)
Definition irrSuccs (n : node) : list node :=
  match n with 0 => [1; 2] | 1 => [2] | 2 => [1; 3] | _ => [] end.
Definition irrPreds (n : node) : list node :=
  match n with 1 => [0; 2] | 2 => [0; 1] | 3 => [2] | _ => [] end.
Definition irrRegion : region := mkRegion [0; 1; 2; 3] irrPreds irrSuccs.

(* The full statement is false: a well-formed region with a cycle is solved by
   the single pass and the value of a node is not the one the equations
   require (a fact killed on every way around the cycle is reported to hold
   at node 1). *)
Theorem C04_cyclic_region_refuted :
  exists (F : framework bool) (r : region) (s : node -> bool),
    semilattice impb (fwTop F) (fwMeet F) /\
    monotone impb (fwTransfer F) /\ changedExact impb (fwChanged F) /\
    mutuallyInverse (rgPreds r) (rgSuccs r) /\
    (forall n, In n (rgNodes r) -> path (rgSuccs r) 0 n) /\
    ~ acyclicFrom (rgSuccs r) 0 /\
    (forall fuel, 5 <= fuel ->
       solveRegion F DForward r fuel (fun _ => true) = Some s) /\
    ~ equationAt impb (fwTransfer F) (rgPreds r) s 1.
Proof.
  destruct (killF_ok 2) as [K1 [K2 [K3 _]]].
  assert (INV : mutuallyInverse irrPreds irrSuccs).
  { intros a b. unfold irrPreds, irrSuccs.
    destruct a as [|[|[|[|a]]]]; destruct b as [|[|[|[|b]]]]; simpl;
      intuition discriminate. }
  set (F := killF 2) in *.
  destruct (solveRegion F DForward irrRegion 5 (fun _ => true))
    as [s|] eqn:E; [|discriminate].
  exists F, irrRegion, s. split; auto. split; auto. split; auto. split; auto.
  split; [|split; [|split]].
  - intros n Hn. simpl in Hn.
    assert (P2 : path irrSuccs 0 2).
    { eapply path_step with 2; [simpl; auto|constructor]. }
    destruct Hn as [<-|[<-|[<-|[<-|[]]]]]; auto.
    + constructor.
    + eapply path_step with 1; [simpl; auto|constructor].
    + eapply path_snoc; [exact P2|]. simpl; auto.
  - intros A. apply (A 1).
    + eapply path_step with 1; [simpl; auto|constructor].
    + exists 2. split; [simpl; auto|].
      eapply path_step with 1; [simpl; auto|constructor].
  - intros fuel Hf.
    do 5 (destruct fuel as [|fuel]; [lia|]). rewrite <- E. reflexivity.
  - assert (Es : s 1 = true /\ s 2 = false).
    { vm_compute in E. inversion E; subst. split; reflexivity. }
    destruct Es as [E1 E2]. intros [m [[Lm _] [Q _]]].
    specialize (Lm 2). simpl in Lm. rewrite E1 in Q. simpl in Q.
    unfold impb in *. rewrite E2 in Lm. specialize (Q eq_refl).
    subst m. discriminate Lm; auto.
Qed.
Print Assumptions C04_cyclic_region_refuted.

Definition diaRegion : region := mkRegion [0; 1; 2; 3] diaPreds diaSuccs.
Example C04_nonvacuous :
  gtChildren DForward diaRegion (gtEntry DForward diaRegion) = [] /\
  acyclicFrom (gtInverseChildren DForward diaRegion) 0 /\
  exists s, solveRegion (killF 2) DForward diaRegion 5 (fun _ => true) = Some s
            /\ s 3 = false.
Proof.
  split; [reflexivity|]. split; [apply C02_nonvacuous|].
  eexists. split; reflexivity.
Qed.
