(** C65: parallel loops are not nested through calls of functions. *)
From Coq Require Import List Bool Arith Lia.
From Verif Require Import NestModel NestSpec NestProof.
Import ListNotations.

Lemma singles : forall comps, noMutual comps -> comps = map (fun f => [f]) (concat comps).
Proof.
  induction comps as [|c comps IH]; intros H; [reflexivity|].
  destruct (H c (or_introl eq_refl)) as [f ->]. cbn. f_equal. apply IH. intros x Hx. exact (H x (or_intror Hx)).
Qed.
Lemma postorder_single fn comps : noMutual comps -> postorder fn comps ->
  NoDup (concat comps) /\
  forall pre f post g, concat comps = pre ++ f :: post -> callsOf fn f g -> g = f \/ In g pre.
Proof.
  intros Hs (Hn & _ & _ & Hp). split; [exact Hn|]. intros pre f post g E Hc.
  assert (E2 : comps = map (fun x => [x]) pre ++ [f] :: map (fun x => [x]) post).
  { rewrite (singles comps Hs), E, map_app. reflexivity. }
  destruct (Hp _ _ _ f g E2 (or_introl eq_refl) Hc) as [[C|[]]|C]; [left; congruence|].
  right. clear - C. induction pre as [|x pre IH]; [exact C|]. cbn in C. destruct C as [C|C]; [left; exact C | right; exact (IH C)].
Qed.

(** A run for functions which are not mutually recursive *)
Lemma run_single fn D comps : postorder fn comps -> loopCallsDirect fn comps -> noMutual comps ->
  exists adj r par k pc, buildAdjacent fn [] 0 comps = Some adj /\ reachability adj = Some r /\ runOnModule fn D comps = Some par
    /\ goodAdj fn (concat comps) adj /\ (forall i j, In (i, j) r <-> epath adj i j)
    /\ parOk fn D (concat comps) k pc par
    /\ ((forall f, In f (concat comps) -> noContext D f = false) -> forall f, In f (concat comps) -> canProcess D f = true -> ~ callsOf fn f f ->
        (forall p g, In p par -> In g (plCalls p) -> ~ reaches fn g f) -> incl (snd (findAll D f (fLoops (fn f)) None)) par).
Proof.
  intros Hp Hl Hs. destruct (postorder_single fn comps Hs Hp) as [Hn Hpost].
  destruct (build_single fn (concat comps) Hn Hpost (concat comps) [] []) as (adj & A1 & A2).
  { reflexivity. }
  { split; [reflexivity|]. intros [|i] e H; discriminate. }
  cbn [length] in A1. rewrite <- (singles comps Hs) in A1.
  destruct (reachability_ok fn (concat comps) Hn Hpost adj A2) as (r & R1 & R2).
  destruct (process_ok fn D (concat comps) Hn Hpost adj A2 r R2 Hl (rev adj) (length adj) [] []) as (par & P1 & (k & pc & P2) & P3 & P4).
  { rewrite firstn_all. reflexivity. }
  { lia. }
  { split; [intros g i []|]. split; [intros p q g []|]. split; [|intros p []].
    intros g. split; [intros (i & []) | intros (p & [] & _)]. }
  exists adj, r, par, k, pc. split; [exact A1|]. split; [exact R1|]. split; [unfold runOnModule; rewrite A1, R1; exact P1|].
  split; [exact A2|]. split; [exact R2|]. split; [exact P2|].
  intros Hc f Hf. destruct (In_nth_error _ _ Hf) as [i Hi]. apply (P4 Hc i f); [|exact Hi].
  rewrite (proj1 A2). apply nth_error_Some. congruence.
Qed.

(** No function executed by a parallel loop has parallel loops if there is no mutual recursion
    and each call in a loop is known as a direct call *)
Theorem C65_nested_partial :
  C65_claim (fun fn comps => loopCallsDirect fn comps /\ noMutual comps).
Proof.
  intros fn D comps Hp [Hl Hs].
  destruct (run_single fn D comps Hp Hl Hs) as (adj & r & par & k & pc & _ & _ & E & _ & _ & (_ & N & _) & _).
  exists par. split; [exact E | exact N].
Qed.
Print Assumptions C65_nested_partial.

(** The matrix of reachability is exact: there is an element for two functions if and only if the
    first one reaches the second one by calls *)
Theorem C65_reachability_partial : forall fn comps,
  postorder fn comps -> noMutual comps ->
  exists adj r, buildAdjacent fn [] 0 comps = Some adj /\ reachability adj = Some r /\
  forall i j f g, nth_error comps i = Some [f] -> nth_error comps j = Some [g] -> f <> g ->
  (In (i, j) r <-> reaches fn f g).
Proof.
  intros fn comps Hp Hs. destruct (postorder_single fn comps Hs Hp) as [Hn Hpost].
  destruct (build_single fn (concat comps) Hn Hpost (concat comps) [] []) as (adj & A1 & A2).
  { reflexivity. }
  { split; [reflexivity|]. intros [|i] e H; discriminate. }
  cbn [length] in A1. rewrite <- (singles comps Hs) in A1.
  destruct (reachability_ok fn (concat comps) Hn Hpost adj A2) as (r & R1 & R2).
  exists adj, r. split; [exact A1|]. split; [exact R1|]. intros i j f g Hi Hj Hne.
  assert (Hnth : forall i f, nth_error comps i = Some [f] -> nth_error (concat comps) i = Some f).
  { intros m h Hm. rewrite (singles comps Hs) in Hm. rewrite nth_error_map in Hm. destruct (nth_error (concat comps) m) as [x|]; [|discriminate].
    cbn in Hm. congruence. }
  rewrite R2, (reaches_epath fn (concat comps) Hn Hpost adj A2 f g i j (Hnth _ _ Hi) (Hnth _ _ Hj)). split; [tauto|].
  intros [H|H]; [contradiction | exact H].
Qed.
Print Assumptions C65_reachability_partial.

(** A function which is not executed by a parallel loop and is not recursive is parallelized *)
Theorem C65_complete_partial : forall fn D comps par f,
  postorder fn comps -> loopCallsDirect fn comps -> noMutual comps ->
  runOnModule fn D comps = Some par ->
  (forall g, In g (concat comps) -> noContext D g = false) ->
  In f (concat comps) -> canProcess D f = true -> ~ callsOf fn f f ->
  (forall p g, In p par -> In g (plCalls p) -> ~ reaches fn g f) ->
  incl (snd (findAll D f (fLoops (fn f)) None)) par.
Proof.
  intros fn D comps par f Hp Hl Hs Hrun Hc Hf Hcan Hself Hno.
  destruct (run_single fn D comps Hp Hl Hs) as (adj & r & par' & k & pc & _ & _ & E & _ & _ & _ & C).
  assert (par' = par) by congruence. subst par'. exact (C Hc f Hf Hcan Hself Hno).
Qed.
Print Assumptions C65_complete_partial.

(** Each parallel loop is a loop of a processed function which passes all checks, the function is
    not recursive.  There are no restrictions on components *)
Theorem C65_checked : forall fn D comps par p,
  runOnModule fn D comps = Some par -> In p par ->
  (exists l, isLoopOf fn p l) /\ loopAllowed D (plL p) /\ canProcess D (plF p) = true /\
  In [plF p] comps /\ ~ callsOf fn (plF p) (plF p).
Proof.
  intros fn D comps par p Hrun Hp. destruct (run_from fn D comps par p Hrun Hp) as (A & B & C & E).
  destruct (findAll_chosen _ _ _ _ _ E) as (_ & F1 & F2 & F3 & F4 & F5 & kids & K).
  split; [|unfold loopAllowed; tauto]. exists (Loop (plL p) (plCalls p) kids). split; [exact K | split; reflexivity].
Qed.
Print Assumptions C65_checked.

(** Parallel loops of a function are not nested in each other *)
Theorem C65_inner : forall fn D comps par p q l l',
  keepsItem D -> runOnModule fn D comps = Some par -> In p par -> In q par -> plF p = plF q ->
  NoDup (flat_map loopIds (fLoops (fn (plF p)))) ->
  isLoopOf fn p l -> loopIn l' (loopKids l) -> loopId l' <> plL q.
Proof.
  intros fn D comps par p q l l' Hk Hrun Hp Hq Hf Hn (L1 & L2 & _) Hl'.
  destruct (run_from fn D comps par p Hrun Hp) as (_ & _ & _ & E1).
  destruct (run_from fn D comps par q Hrun Hq) as (_ & _ & _ & E2). rewrite <- Hf in E2.
  destruct (proj2 (find_inner D (plF p) Hk (lsizes (fLoops (fn (plF p))))) _ (le_n _) Hn) as [I1 _].
  exact (I1 p q l l' E1 E2 L1 L2 Hl').
Qed.
Print Assumptions C65_inner.

(** ** Examples *)
Definition exD : decisions := Decisions (fun _ => true) (fun _ => true) (fun _ => true) (fun _ => false) (fun _ => true)
  (fun _ p => match p with Some p => Some p | None => Some (PItem false true) end) (fun _ => true) (fun _ => false).
Ltac order := repeat match goal with
  | H : _ \/ _ |- _ => destruct H
  | H : False |- _ => contradiction H
  | H : In _ _ |- _ => progress cbn in H
  | H : ?a = ?f |- _ => is_var f; subst f
  end.
(** Cuts of a list *)
Lemma cut_cons {A} (x : A) l pre c post : x :: l = pre ++ c :: post ->
  pre = [] /\ c = x /\ post = l \/ exists pre', pre = x :: pre' /\ l = pre' ++ c :: post.
Proof. destruct pre as [|y pre]; intros H; injection H as <- H; [left; subst; tauto | right; exists pre; tauto]. Qed.
Lemma cut_nil {A} (pre : list A) c post : [] = pre ++ c :: post -> False.
Proof. destruct pre; discriminate. Qed.
Ltac cuts H := let P := fresh "pre" in
  first [ exfalso; exact (cut_nil _ _ _ H)
        | apply cut_cons in H; destruct H as [(-> & -> & ->)|(P & -> & H)]; [|cuts H] ].
Ltac noDup := repeat (constructor; [cbn; intuition congruence|]); constructor.

(** The function 2 calls the function 1 in a loop with an inner loop, the function 1 calls the function 0 *)
Definition exF (f : nat) : func :=
  match f with
  | 2 => Func [1] [Loop 20 [1] [Loop 21 [1] []]; Loop 22 [] []]
  | 1 => Func [0; 0] [Loop 10 [0] []]
  | 0 => Func [] [Loop 5 [] []]
  | 3 => Func [] [Loop 30 [] []]
  | _ => Func [] []
  end.
Definition exC : list (list nat) := [[0]; [1]; [2]; [3]].
Lemma singleton_order fn fs : NoDup fs ->
  (forall pre c post f g, map (fun x : nat => [x]) fs = pre ++ c :: post -> In f c -> callsOf fn f g -> In g c \/ In g (concat pre)) ->
  postorder fn (map (fun x => [x]) fs).
Proof.
  intros Hn H. split; [|split; [|split; [|exact H]]].
  - replace (concat (map (fun x => [x]) fs)) with fs; [exact Hn|]. clear. induction fs as [|x fs IH]; [reflexivity|]. cbn. f_equal. exact IH.
  - intros c Hc. apply in_map_iff in Hc. destruct Hc as (x & <- & _). discriminate.
  - intros c f g Hc Hf Hg. apply in_map_iff in Hc. destruct Hc as (x & <- & _). destruct Hf as [<-|[]], Hg as [<-|[]]. constructor.
Qed.
Ltac order4 := intros pre c post f g Hcut Hf Hc; cbn [map] in Hcut; cuts Hcut; order; unfold callsOf in *; order; cbn; tauto.
Lemma ex_order : postorder exF exC.
Proof. apply (singleton_order exF [0; 1; 2; 3]); [noDup | order4]. Qed.
Lemma loopIn_inv l x xs : loopIn l (x :: xs) -> l = x \/ loopIn l (loopKids x) \/ loopIn l xs.
Proof.
  intros H. inversion H as [? ? Hin | ? i c k ? Hin Hd]; subst.
  - destruct Hin as [->|Hin]; [left; reflexivity | right; right; apply LoopHere; exact Hin].
  - destruct Hin as [->|Hin]; [right; left; exact Hd | right; right; exact (LoopDeep _ _ _ _ _ Hin Hd)].
Qed.
Lemma loopIn_nil l : loopIn l [] -> False.
Proof. intros H. inversion H as [? ? Hin | ? i c k ? Hin Hd]; contradiction Hin. Qed.
Ltac loops H := first [ exfalso; exact (loopIn_nil _ H)
  | apply loopIn_inv in H; destruct H as [->|[H|H]]; [|cbn [loopKids] in H; loops H|loops H] ].
Lemma ex_calls : loopCallsDirect exF exC.
Proof.
  intros f l g Hf Hl Hg. order; cbn in Hl; loops Hl; cbn in Hg; order; left; unfold callsOf; cbn; tauto.
Qed.
Lemma ex_single : noMutual exC.
Proof. intros c Hc. unfold exC in Hc. cbn in Hc. repeat (destruct Hc as [<-|Hc]; [eexists; reflexivity|]). contradiction Hc. Qed.
Example C65_nested_ex :
  postorder exF exC /\ loopCallsDirect exF exC /\ noMutual exC /\ keepsItem exD /\
  runOnModule exF exD exC = Some [ParLoop 3 30 []; ParLoop 2 20 [1]; ParLoop 2 22 []] /\ reaches exF 1 0 /\ reaches exF 2 0 /\
  NoDup (flat_map loopIds (fLoops (exF 2))).
Proof.
  split; [exact ex_order|]. split; [exact ex_calls|]. split; [exact ex_single|]. split; [intros id p; discriminate|].
  split; [vm_compute; reflexivity|].
  assert (H : reaches exF 1 0) by (apply (ReachStep _ 1 0 0); [left; reflexivity | constructor]).
  split; [exact H|]. split; [apply (ReachStep _ 2 1 0); [left; reflexivity | exact H]|]. cbn. noDup.
Qed.

(** ** Refutations *)
(** Only calls of the first function of a component are considered: the function 2 calls the
    function 0, functions 1 and 2 are mutually recursive, the function 3 calls the function 1 in
    a parallel loop, but the loop of the function 0 is also parallel *)
Definition frontF (f : nat) : func :=
  match f with
  | 0 => Func [] [Loop 1 [] []]
  | 1 => Func [2] []
  | 2 => Func [1; 0] []
  | 3 => Func [1] [Loop 30 [1] []]
  | _ => Func [] []
  end.
Definition frontC : list (list nat) := [[0]; [1; 2]; [3]].
Lemma front_reach : reaches frontF 1 2 /\ reaches frontF 2 1 /\ reaches frontF 1 0.
Proof.
  assert (H1 : reaches frontF 1 2) by (apply (ReachStep _ 1 2 2); [left; reflexivity | constructor]).
  split; [exact H1|]. split; [apply (ReachStep _ 2 1 1); [left; reflexivity | constructor]|].
  apply (ReachStep _ 1 2 0); [left; reflexivity|]. apply (ReachStep _ 2 0 0); [right; left; reflexivity | constructor].
Qed.
Theorem C65_front_refuted :
  ~ C65_claim (fun fn comps => loopCallsDirect fn comps /\ lastMutual comps).
Proof.
  intros H. destruct front_reach as (R1 & R2 & R3). destruct (H frontF exD frontC) as (par & E & N).
  - split; [noDup|]. split; [intros c Hc; unfold frontC in Hc; order; discriminate|]. split.
    + intros c f g Hc Hf Hg. unfold frontC in Hc. cbn in Hc.
      destruct Hc as [<-|[<-|[<-|[]]]]; order; first [constructor | assumption].
    + intros pre c post f g Hcut Hf Hc. unfold frontC in Hcut. cuts Hcut; order; unfold callsOf in *; order; cbn; tauto.
  - split.
    + intros f l g Hf Hl Hg. order; cbn in Hl; loops Hl; cbn in Hg; order; left; unfold callsOf; cbn; tauto.
    + intros pre c post Hcut Hlen. unfold frontC in Hcut. cuts Hcut; cbn in *; lia.
  - vm_compute in E. injection E as <-. apply (N (ParLoop 3 30 [1]) (ParLoop 0 1 []) 1); [left; reflexivity | right; left; reflexivity | left; reflexivity | exact R3].
Qed.
Print Assumptions C65_front_refuted.

(** A number of a component is used as a number of a function: functions 1 and 2 are mutually
    recursive and call nothing else, the function 3 calls the function 0, the function 4 calls the
    function 3, the function 5 calls the function 4 in a parallel loop, but the loop of the
    function 0 is also parallel *)
Definition indexF (f : nat) : func :=
  match f with
  | 0 => Func [] [Loop 1 [] []]
  | 1 => Func [2] []
  | 2 => Func [1] []
  | 3 => Func [0] []
  | 4 => Func [3] []
  | 5 => Func [4] [Loop 50 [4] []]
  | _ => Func [] []
  end.
Definition indexC : list (list nat) := [[0]; [1; 2]; [3]; [4]; [5]].
Theorem C65_index_refuted :
  ~ C65_claim (fun fn comps => loopCallsDirect fn comps /\ sameCalls fn comps).
Proof.
  intros H.
  assert (R1 : reaches indexF 1 2) by (apply (ReachStep _ 1 2 2); [left; reflexivity | constructor]).
  assert (R2 : reaches indexF 2 1) by (apply (ReachStep _ 2 1 1); [left; reflexivity | constructor]).
  assert (R3 : reaches indexF 4 0).
  { apply (ReachStep _ 4 3 0); [left; reflexivity|]. apply (ReachStep _ 3 0 0); [left; reflexivity | constructor]. }
  destruct (H indexF exD indexC) as (par & E & N).
  - split; [noDup|]. split; [intros c Hc; unfold indexC in Hc; order; discriminate|]. split.
    + intros c f g Hc Hf Hg. unfold indexC in Hc. cbn in Hc.
      destruct Hc as [<-|[<-|[<-|[<-|[<-|[]]]]]]; order; first [constructor | assumption].
    + intros pre c post f g Hcut Hf Hc. unfold indexC in Hcut. cuts Hcut; order; unfold callsOf in *; order; cbn; tauto.
  - split.
    + intros f l g Hf Hl Hg. order; cbn in Hl; loops Hl; cbn in Hg; order; left; unfold callsOf; cbn; tauto.
    + intros c f f' g Hc Hf Hf' Hg. unfold indexC in Hc. cbn in Hc.
      destruct Hc as [<-|[<-|[<-|[<-|[<-|[]]]]]]; order; unfold callsOf in *; cbn in Hg; order; cbn; tauto.
  - vm_compute in E. injection E as <-. apply (N (ParLoop 5 50 [4]) (ParLoop 0 1 []) 4); [left; reflexivity | right; left; reflexivity | left; reflexivity | exact R3].
Qed.
Print Assumptions C65_index_refuted.

(** A call through a cast is not a direct call for the order of components: the function 0 calls
    the function 1 in a parallel loop, but the function 1 has been already parallelized *)
Definition castF (f : nat) : func :=
  match f with
  | 0 => Func [] [Loop 10 [1] []]
  | 1 => Func [] [Loop 20 [] []]
  | _ => Func [] []
  end.
Theorem C65_cast_refuted :
  ~ C65_claim (fun fn comps => loopCallsKnown fn comps /\ noMutual comps).
Proof.
  intros H. destruct (H castF exD [[0]; [1]]) as (par & E & N).
  - apply (singleton_order castF [0; 1]).
    + noDup.
    + order4.
  - split.
    + intros f l g Hf Hl Hg. order; cbn in Hl; loops Hl; cbn in Hg; order; cbn; tauto.
    + intros c Hc. cbn in Hc. repeat (destruct Hc as [<-|Hc]; [eexists; reflexivity|]). contradiction Hc.
  - vm_compute in E. injection E as <-. apply (N (ParLoop 0 10 [1]) (ParLoop 1 20 []) 1); [right; left; reflexivity | left; reflexivity | left; reflexivity | constructor].
Qed.
Print Assumptions C65_cast_refuted.
