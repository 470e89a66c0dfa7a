(** C71: the inliner finds recursive functions, so its expansion finishes. *)
From Coq Require Import List Bool Arith Lia.
From Verif Require Import RecurModel RecurSpec RecurProof.
Import ListNotations.

Definition same (l : list nat) : list nat := l.
Lemma same_ok : isOrder same.
Proof. intros l x. reflexivity. Qed.
Definition all (x : nat) : bool := true.

(** ** What holds *)
(** If chains of calls between two functions have the same length then the search finishes, *)
Theorem C71_finishes_partial : C71_finishes true false.
Proof.
  intros ts order need (W & O & G & _). specialize (G eq_refl).
  destruct (fold_finishes ts need order ts) as (n & H).
  - intros t _. pose proof (graded_finishes ts W need order O (tFun t) G) as F.
    destruct (search ts order (length ts + 2) need [tFun t] (callees ts need (tFun t))) as [r|] eqn:E; [|now destruct F].
    now exists (length ts + 2), r.
  - destruct (H n [] (le_n n)) as (rs & E). now exists n, rs.
Qed.
Print Assumptions C71_finishes_partial.
(** each found function is recursive, *)
Theorem C71_sound_partial : C71_sound true false.
Proof.
  intros ts order need n rs f (W & O & G & _) E HF. specialize (G eq_refl).
  apply (proj1 (fold_exact ts W need order O n ts G [] rs E (fun x F => match F with end))). exact HF.
Qed.
Print Assumptions C71_sound_partial.
(** each recursive function is found, *)
Theorem C71_complete_partial : C71_complete true false.
Proof.
  intros ts order need n rs f (W & O & G & _) E HF HR. specialize (G eq_refl).
  exact (proj2 (fold_exact ts W need order O n ts G [] rs E (fun x F => match F with end)) f HF HR).
Qed.
Print Assumptions C71_complete_partial.
(** and the expansion of each function finishes. *)
Theorem C71_expansion_partial : C71_expansion true false.
Proof. intros ts order (W & O & G & _). exact (check_expand ts W order O (G eq_refl)). Qed.
Print Assumptions C71_expansion_partial.
(** Other functions are not excluded. *)
Theorem C71_kept_partial : forall ts order n need, premises true false ts order (initial ts) ->
  checkTemplates ts order n = Some need ->
  forall t, In t ts -> tNeed t = true -> tBad t = false -> ~ recursive ts (initial ts) (tFun t) -> need (tFun t) = true.
Proof. intros ts order n need (W & O & G & _). exact (check_kept ts W order O (G eq_refl) n need). Qed.
Print Assumptions C71_kept_partial.
(** The search finishes if each function contains calls of one kind only. *)
Theorem C71_uniform_finishes_partial : C71_finishes false true.
Proof.
  intros ts order need (W & O & _ & U). specialize (U eq_refl).
  destruct (fold_finishes ts need order ts) as (n & H).
  - intros t _. apply (search_uniform ts W need order O U (S (length (rest ts [tFun t])))); [lia|].
    intros x HX. apply (callees_iff ts W) in HX. exact (callsOf_in ts W need _ _ HX).
  - destruct (H n [] (le_n n)) as (rs & E). now exists n, rs.
Qed.
Print Assumptions C71_uniform_finishes_partial.
(** A function which calls itself is found by each finished search. *)
Theorem C71_self_partial : forall ts order need n rs f, premises false false ts order need ->
  findRecursion ts order n need = Some rs -> callsOf ts need f f -> In f rs.
Proof.
  intros ts order need n rs f (W & O & _) E H. apply (fold_self ts W need order O n ts [] rs E f); [|exact H].
  exact (callsOf_in ts W need f f H).
Qed.
Print Assumptions C71_self_partial.
(** If there is recursion then a finished search finds something. *)
Theorem C71_some_partial : forall ts order need n rs, premises false false ts order need ->
  findRecursion ts order n need = Some rs -> (exists f, recursive ts need f) -> rs <> [].
Proof.
  intros ts order need n rs (W & O & _) E (f & k & H). apply (fold_some ts W need order O n ts [] rs E).
  exists f. split; [exact (chain_in ts W need f f k H)|now exists k].
Qed.
Print Assumptions C71_some_partial.
(** A found function is called from one of functions in two ways. *)
Theorem C71_repeated_partial : forall ts order need n rs c, premises false false ts order need ->
  findRecursion ts order n need = Some rs -> In c rs ->
  recursive ts need c \/ exists f i j, i < j /\ chain ts need f c i /\ chain ts need f c j.
Proof.
  intros ts order need n rs c (W & O & _) E H.
  destruct (fold_repeated ts W need order O n ts [] rs E c H) as [[]|(t & k & j & _ & [[-> ->]|HK] & L & HJ)].
  - left. now exists j.
  - right. now exists (tFun t), k, j.
Qed.
Print Assumptions C71_repeated_partial.

(** ** A case which meets the premises: 0 and 1 call each other, 1 and 3 call 2 *)
Definition tsGood : list templ :=
  [Templ 0 true false [1]; Templ 1 true false [0; 2]; Templ 2 true false []; Templ 3 false false [2]].
Ltac wfTac := split; [cbn; repeat constructor; cbn; intuition discriminate
                     |intros t g HT HG; cbn in HT; repeat (destruct HT as [<-|HT]; [cbn in HG |- *; intuition|]); destruct HT].
Lemma good_wf : wf tsGood.
Proof. wfTac. Qed.
Definition goodTriples : list (nat * nat * nat) := [(0,1,1); (0,0,2); (0,2,2); (1,0,1); (1,2,1); (1,1,2); (3,2,1)].
Lemma good_calls need f g : callsOf tsGood need f g -> In (f, g) [(0,1); (1,0); (1,2); (3,2)].
Proof.
  intros ((t & HT & <- & HG) & _). cbn in HT. repeat (destruct HT as [<-|HT]; [cbn in HG |- *; intuition (subst; auto)|]). destruct HT.
Qed.
Lemma good_triples need f g k : chainOut tsGood need f g k -> In (f, g, k) goodTriples.
Proof.
  induction 1 as [g C|g h k H IH N C]; apply good_calls in C; cbn in C.
  - destruct C as [E|[E|[E|[E|[]]]]]; injection E as <- <-; cbn; intuition.
  - cbn in IH. repeat (destruct IH as [E1|IH]; [injection E1 as <- <- <-; repeat (destruct C as [E|C]; [try discriminate E; injection E as <-; cbn; try (now destruct N); intuition|]); destruct C|]). destruct IH.
Qed.
Lemma good_graded need : graded tsGood need.
Proof.
  intros f g j k N H1 H2. apply good_triples in H1. apply good_triples in H2. cbn in H1, H2.
  repeat (destruct H1 as [E1|H1]; [injection E1 as <- <- <-; repeat (destruct H2 as [E2|H2]; [try discriminate E2; injection E2; congruence|]); destruct H2|]). destruct H1.
Qed.
Example C71_good_example : premises true true tsGood same all /\ findRecursion tsGood same 4 all = Some [1; 0] /\
  recursive tsGood all 1 /\ ~ recursive tsGood all 2 /\
  (exists need, checkTemplates tsGood same 4 = Some need /\ map need [0; 1; 2; 3] = [false; false; true; false]).
Proof.
  split; [|split; [|split; [|split]]].
  - split; [exact good_wf|]. split; [exact same_ok|]. split; [intros _; apply good_graded|intros _ t _; left; reflexivity].
  - vm_compute. reflexivity.
  - apply (C71_sound_partial tsGood same all 4 [1; 0]); [|vm_compute; reflexivity|now left].
    split; [exact good_wf|]. split; [exact same_ok|]. split; [intros _; apply good_graded|discriminate].
  - intro R. assert (H : In 2 [1; 0]); [|cbn in H; intuition discriminate].
    apply (C71_complete_partial tsGood same all 4 [1; 0] 2); [|vm_compute; reflexivity|cbn; intuition|exact R].
    split; [exact good_wf|]. split; [exact same_ok|]. split; [intros _; apply good_graded|discriminate].
  - eexists. split; [vm_compute; reflexivity|vm_compute; reflexivity].
Qed.
Print Assumptions C71_good_example.

(** ** What does not hold *)
(** A function without recursion is found if it is called directly and through another function *)
Definition tsDiamond : list templ :=
  [Templ 0 true false [1; 2]; Templ 1 true false [3]; Templ 2 true false [1]; Templ 3 true false []].
Theorem C71_sound_refuted : ~ C71_sound false true.
Proof.
  intro H. assert (R : recursive tsDiamond all 1).
  { apply (H tsDiamond same all 3 [1]); [|vm_compute; reflexivity|now left].
    split; [wfTac|]. split; [exact same_ok|]. split; [discriminate|intros _ t _; left; reflexivity]. }
  destruct R as (k & R). assert (Q : forall g j, chain tsDiamond all 1 g j -> g = 3); [|apply Q in R; discriminate].
  intros g j C. induction C as [g C|g h j C IH CO].
  - destruct C as ((t & HT & ET & HG) & _). cbn in HT. repeat (destruct HT as [<-|HT]; [try discriminate ET; cbn in HG; intuition|]). destruct HT.
  - subst g. destruct CO as ((t & HT & ET & HG) & _). cbn in HT. repeat (destruct HT as [<-|HT]; [try discriminate ET; cbn in HG; intuition|]). destruct HT.
Qed.
Print Assumptions C71_sound_refuted.
(** Functions which call each other in turn are not found if all of them call a function which calls itself *)
Definition tsCycle : list templ :=
  [Templ 0 true false [1; 3]; Templ 1 true false [2; 3]; Templ 2 true false [0; 3]; Templ 3 true false [3]].
Lemma cycle_premises need : (forall x, x < 4 -> need x = true) -> premises false true tsCycle same need.
Proof.
  intro A. split; [wfTac|]. split; [exact same_ok|]. split; [discriminate|]. intros _ t HT. left. intros g HG. apply A.
  cbn in HT. repeat (destruct HT as [<-|HT]; [cbn in HG; intuition lia|]). destruct HT.
Qed.
Theorem C71_complete_refuted : ~ C71_complete false true.
Proof.
  intro H. assert (R : In 0 [3; 3; 3]).
  { assert (C : forall t, In t tsCycle -> forall g, In g (tCalls t) -> callsOf tsCycle all (tFun t) g).
    { intros t HT g HG. split; [now exists t|reflexivity]. }
    apply (H tsCycle same all 4 [3; 3; 3] 0); [now apply cycle_premises| |now left|].
    - vm_compute. reflexivity.
    - exists 3. apply (ChainMore _ _ _ 2 0 2); [apply (ChainMore _ _ _ 1 2 1); [apply ChainOne|]|].
      + apply (C (Templ 0 true false [1; 3])); cbn; auto.
      + apply (C (Templ 1 true false [2; 3])); cbn; auto.
      + apply (C (Templ 2 true false [0; 3])); cbn; auto. }
  cbn in R. intuition discriminate.
Qed.
Print Assumptions C71_complete_refuted.
(** so the expansion does not finish *)
Theorem C71_expansion_refuted : ~ C71_expansion false true.
Proof.
  intro H. destruct (H tsCycle same) as (need & (n & E) & X).
  { apply cycle_premises. intros x L. do 4 (destruct x as [|x]; [reflexivity|]). lia. }
  assert (A : need 0 = true /\ need 1 = true /\ need 2 = true).
  { destruct n as [|[|n]]; try (vm_compute in E; discriminate E).
    cbv -[Nat.eqb] in E. injection E as <-. vm_compute. auto. }
  clear E. destruct A as (A0 & A1 & A2).
  assert (Q : forall m, expand tsCycle m need 0 = false /\ expand tsCycle m need 1 = false /\ expand tsCycle m need 2 = false).
  { induction m as [|m (I0 & I1 & I2)]; [now repeat split|]. cbn [expand]. 
    unfold callees, calls, tsCycle. cbn [find tFun tCalls Nat.eqb filter]. rewrite A0, A1, A2. 
    cbn [forallb]. fold tsCycle. rewrite I0, I1, I2. now repeat split. }
  destruct (X 0) as (m & EM). destruct (Q m) as (Q0 & _). congruence.
Qed.
Print Assumptions C71_expansion_refuted.
(** The search does not finish if the last call of a recursive function will not be inlined *)
Definition tsLoop : list templ := [Templ 0 true false [1]; Templ 1 true false [1; 2]; Templ 2 false false []].
Theorem C71_finishes_refuted : ~ C71_finishes false false.
Proof.
  intro H. destruct (H tsLoop same (initial tsLoop)) as (n & rs & E).
  { split; [wfTac|]. split; [exact same_ok|]. split; discriminate. }
  unfold findRecursion in E. cbn [tsLoop fold_left visit] in E. fold tsLoop in E. cbn [mem existsb tFun] in E.
  assert (Q : forall m, search tsLoop same m (initial tsLoop) [0] [1] = None).
  { induction m as [|m IH]; [reflexivity|]. exact IH. }
  change (callees tsLoop (initial tsLoop) 0) with [1] in E. rewrite (Q n) in E. discriminate E.
Qed.
Print Assumptions C71_finishes_refuted.
