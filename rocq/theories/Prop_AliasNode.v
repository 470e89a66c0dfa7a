(** C41: references to alias nodes stay valid after merges. *)
From Coq Require Import Arith Bool List Lia.
From Verif Require Import AliasNodeModel AliasNodeSpec AliasNodeProof.
Import ListNotations.

(** After any history no reference is dangling: a node which somebody refers to
    is not destroyed. *)
Theorem C41_no_dangling : forall ls s w a b n, NoDup ls -> history ls s w a b ->
  referred s n -> In n (pool s).
Proof.
  intros ls s w a b n ND H R. destruct (history_ok ls s w a b ND H) as (K & _).
  apply ok_elim in K as (_ & _ & P3 & P4 & P5 & P6 & _).
  destruct R as [(m & M & E)|[(m & M & E)|[(e & I & E)|U]]].
  - exact (proj1 (P3 m n M E)).
  - exact (P4 m n M E).
  - exact (P5 e n I E).
  - exact (P6 n U).
Qed.
Print Assumptions C41_no_dangling.

(** An allowed operation neither accesses a destroyed node nor fails an
    assertion nor runs forever. *)
Theorem C41_progress : forall ls s w a b o, NoDup ls -> history ls s w a b -> allowed w s o ->
  exists s', (exists n, forall fuel, n <= fuel -> step fuel s o = Some s') /\
    history ls s' (merged w o) (located a o) (lifted b o).
Proof.
  intros ls s w a b o ND H A. destruct (history_ok ls s w a b ND H) as (K & _).
  destruct (step_ok w s o K A) as (N & s' & R & _). exists s'.
  assert (E : exists n, forall fuel, n <= fuel -> step fuel s o = Some s') by (exists N; exact R).
  split; [exact E|]. exact (historyStep ls s w a b o s' H A E).
Qed.
Print Assumptions C41_progress.

(** A location is always in that node which all nodes it was placed in are merged
    in.  This node is allocated and it is not forwarding. *)
Theorem C41_location : forall ls s w a b e, NoDup ls -> history ls s w a b -> In e ls ->
  exists s' n, (forall fuel, n <= fuel -> getAliasNode fuel s e = Some (s', a e)) /\
    (forall x, a e = Some x -> In x (pool s') /\ isForwarding s' x = false).
Proof.
  intros ls s w a b e ND H I. destruct (history_ok ls s w a b ND H) as (K & (TA & TB) & L).
  rewrite <- L in I. rewrite <- (TA e I).
  destruct (getAliasNode_ok w s e K I) as (N & s' & G & K' & LN & _). exists s', N.
  split; [exact G|]. intros x X. rewrite X in LN.
  destruct (lnode s e) as [y|] eqn:LE; [|discriminate]. cbn in X. injection X as X.
  pose proof (ok_elim _ _ K) as (_ & _ & _ & _ & P5 & _).
  pose proof (w_idem w s y K (P5 e y I LE)) as WI. rewrite X in WI.
  pose proof (ok_elim _ _ K') as (_ & _ & _ & _ & P5' & _).
  assert (L' : locs s' = locs s) by exact (proj1 (proj2 (getAliasNode_frame _ _ _ _ _ (G N (le_n N))))).
  assert (XI : In x (pool s')) by (apply (P5' e); [now rewrite L'|exact LN]).
  split; [exact XI|]. unfold isForwarding. destruct (ok_end _ _ _ K' XI) as (_ & F).
  rewrite WI in F. now rewrite F.
Qed.
Print Assumptions C41_location.

(** The same for a parent of a node. *)
Theorem C41_parent : forall ls s w a b m, NoDup ls -> history ls s w a b -> In m (pool s) ->
  exists s' n, (forall fuel, n <= fuel -> getParent fuel s m = Some (s', b m)) /\
    (forall x, b m = Some x -> In x (pool s') /\ isForwarding s' x = false).
Proof.
  intros ls s w a b m ND H I. destruct (history_ok ls s w a b ND H) as (K & (TA & TB) & L).
  rewrite <- (TB m I).
  destruct (getParent_ok w s m K I) as (N & s' & G & K' & I' & LN & _). exists s', N.
  split; [exact G|]. intros x X. unfold parentOf in LN. rewrite X in LN.
  destruct (par s m) as [y|] eqn:LE; [|discriminate]. cbn in X. injection X as X.
  pose proof (ok_elim _ _ K) as (_ & _ & P3 & _).
  pose proof (w_idem w s y K (proj1 (P3 m y I LE))) as WI. rewrite X in WI.
  pose proof (ok_elim _ _ K') as (_ & _ & P3' & _).
  assert (XI : In x (pool s')) by exact (proj1 (P3' m x I' LN)).
  split; [exact XI|]. unfold isForwarding. destruct (ok_end _ _ _ K' XI) as (_ & F).
  rewrite WI in F. now rewrite F.
Qed.
Print Assumptions C41_parent.

(** Resolution of a node ends with the node it is merged in. *)
Theorem C41_resolve : forall ls s w a b m, NoDup ls -> history ls s w a b -> In m (pool s) ->
  exists s' n, (forall fuel, n <= fuel -> getForwardedTarget fuel s m = Some (s', w m)) /\
    In m (pool s') /\ In (w m) (pool s') /\ isForwarding s' (w m) = false.
Proof.
  intros ls s w a b m ND H I. destruct (history_ok ls s w a b ND H) as (K & _ & _).
  destruct (resolve_now w s m K I) as (N & s' & G & K' & I'). exists s', N.
  split; [exact G|]. split; [exact I'|]. destruct (ok_end _ _ _ K' I') as (A & B).
  split; [exact A|]. unfold isForwarding. now rewrite B.
Qed.
Print Assumptions C41_resolve.

(** A history with merges: node 1 with a location and a child 4 is merged in 2,
    then 2 is merged in 3, and references are resolved.  Nodes 1 and 2 are
    destroyed. *)
Definition ops : list op :=
  [OMake 1 KEstimate 0; OMake 2 KEstimate 0; OMake 3 KEstimate 0; OMake 4 KEstimate 1;
   OSetAliasNode 0 1; OSetAliasNode 1 3; OMerge 2 1; OMerge 3 2; OGetAliasNode 0; OGetParent 4].
Definition run (s : option state) (o : op) : option state :=
  match s with Some s => step 9 s o | None => None end.
Definition after (k : nat) : state :=
  match fold_left run (firstn k ops) (Some (initial [0; 1])) with
  | Some s => s
  | None => initial []
  end.
Ltac deep := match goal with |- exists n, forall fuel, n <= fuel -> _ =>
  exists 9; let f := fresh in let l := fresh in intros f l;
  do 9 (destruct f as [|f]; [exfalso; lia|]); clear l; lazy; reflexivity end.
Ltac holds := lazy; intuition discriminate.
Lemma history_run : exists w a b, history [0; 1] (after 8) w a b /\
  a 0 = Some 3 /\ b 4 = Some 3 /\ w 1 = 3.
Proof.
  pose proof (historyStart [0; 1]) as H.
  assert (H1 := historyStep _ _ _ _ _ (OMake 1 KEstimate 0) (after 1) H ltac:(holds) ltac:(deep)).
  assert (H2 := historyStep _ _ _ _ _ (OMake 2 KEstimate 0) (after 2) H1 ltac:(holds) ltac:(deep)).
  assert (H3 := historyStep _ _ _ _ _ (OMake 3 KEstimate 0) (after 3) H2 ltac:(holds) ltac:(deep)).
  assert (H4 := historyStep _ _ _ _ _ (OMake 4 KEstimate 1) (after 4) H3 ltac:(holds) ltac:(deep)).
  assert (H5 := historyStep _ _ _ _ _ (OSetAliasNode 0 1) (after 5) H4 ltac:(holds) ltac:(deep)).
  assert (H6 := historyStep _ _ _ _ _ (OSetAliasNode 1 3) (after 6) H5 ltac:(holds) ltac:(deep)).
  assert (H7 := historyStep _ _ _ _ _ (OMerge 2 1) (after 7) H6
                  ltac:(lazy; repeat split; auto; try discriminate; exists 0; repeat split; auto; discriminate)
                  ltac:(deep)).
  assert (H8 := historyStep _ _ _ _ _ (OMerge 3 2) (after 8) H7
                  ltac:(lazy; repeat split; auto; try discriminate; exists 0; repeat split; auto; discriminate)
                  ltac:(deep)).
  eexists _, _, _. split; [exact H8|]. lazy. auto.
Qed.
Example C41_example :
  pool (after 8) = [0; 1; 2; 3; 4] /\ pool (after 10) = [0; 3; 4] /\
  (lnode (after 10) 0, lnode (after 10) 1, par (after 10) 4) = (Some 3, Some 3, Some 3).
Proof. lazy. auto. Qed.

(** A node is destroyed as soon as its last counted reference is dropped, and a
    reference to a destroyed node is not followed: without the condition that a
    node is referred from elsewhere, a replacement of a parent with itself uses a
    destroyed node. *)
Theorem C41_held_condition_needed : exists ls s w a b n p,
  NoDup ls /\ history ls s w a b /\ real w s n /\ real w s p /\ n <> p /\
  par s n = Some p /\ forall fuel, step fuel s (OSetParent n p) = None.
Proof.
  pose proof (historyStart []) as H.
  set (run' := fun s o => match step 9 s o with Some s => s | None => s end).
  set (s1 := run' (initial []) (OMake 1 KEstimate 0)).
  set (s2 := run' s1 (OMake 2 KEstimate 1)).
  assert (H1 := historyStep _ _ _ _ _ (OMake 1 KEstimate 0) s1 H ltac:(holds) ltac:(deep)).
  assert (H2 := historyStep _ _ _ _ _ (OMake 2 KEstimate 1) s2 H1 ltac:(holds) ltac:(deep)).
  eexists [], s2, _, _, _, 2, 1. split; [constructor|]. split; [exact H2|].
  lazy. repeat split; auto. { discriminate. } intros [|fuel]; reflexivity.
Qed.
Print Assumptions C41_held_condition_needed.
