(** C73: weights of functions and loops.

    [C73_weights_partial] needs numbers of executions of functions which fit 32 bits and loops with inner loops
    which are executed at least once.  Without each of these conditions the claim is refuted: the pass divides by
    zero. *)
From Coq Require Import List Bool Arith ZArith Lia Sorted.
From Verif Require Import WeightModel WeightSpec WeightProof.
Import ListNotations.

(** The number of executions at a position *)
Theorem C73_count : forall cov loc c, sorted cov -> getExecutionCount cov loc = Some c <-> countAt cov loc c.
Proof.
  intros cov loc c SO. destruct (getExecutionCount_ok cov loc SO) as (d & E & C). rewrite E. split; [intro H; injection H as <-; exact C|]. intro H. f_equal. exact (countAt_fun cov loc d c SO C H).
Qed.
Print Assumptions C73_count.
Definition covEx : list seg := [Seg 1 5 10; Seg 2 3 20; Seg 2 9 0; Seg 4 1 7].
Example C73_count_example : sorted covEx /\ getExecutionCount covEx (Some (2, 8)) = Some 20%Z /\ getExecutionCount covEx (Some (3, 1)) = Some 0%Z /\
  getExecutionCount covEx (Some (9, 9)) = Some 7%Z /\ getExecutionCount covEx (Some (1, 4)) = Some 0%Z.
Proof. split; [repeat constructor; unfold leq, pos; cbn; lia|]. repeat split. Qed.

Theorem C73_weights_partial : C73_claim (Conds true true).
Proof. exact C73_proof. Qed.
Print Assumptions C73_weights_partial.

(** ** An example: f is called 3 times, it calls g, g has a nest of loops *)
Definition cntEx (cov : list seg) (i : inst) : Z := match getExecutionCount cov (iLoc i) with Some c => c | None => 0%Z end.
Lemma cntEx_ok cov i : sorted cov -> countAt cov (iLoc i) (cntEx cov i).
Proof. intro SO. unfold cntEx. destruct (getExecutionCount_ok cov (iLoc i) SO) as (c & E & C). now rewrite E. Qed.
Definition gEx : func :=
  Func false (Some (6%Z, [Seg 1 1 6; Seg 2 1 60; Seg 3 1 600]))
    [[Inst (Some (1, 1)) 1 CNone]; [Inst (Some (2, 1)) 2 CNone]; [Inst (Some (3, 1)) 1 CNone; Inst (Some (3, 5)) 1 (CFn 7 true)]]
    [Loop (Some 0) 1 [1; 2] [Loop (Some 1) 2 [2] []]].
Definition fEx : func := Func false (Some (3%Z, [Seg 10 1 3; Seg 11 1 6])) [[Inst (Some (10, 1)) 5 CNone; Inst (Some (11, 1)) 1 (CFn 0 false); Inst None 4 CDbg]] [].
Definition progEx (g f : func) (n : nat) : func := match n with 0 => g | 1 => f | _ => Func true None [] [] end.
Definition sccsEx : list (bool * list nat) := [(false, [0]); (false, [1])].
Ltac sorts := repeat constructor; unfold leq, pos; cbn; lia.
Example C73_example_wf : wfProg (Conds true true) (progEx gEx fEx) 100 10 cntEx sccsEx.
Proof.
  split.
  - exact cntEx_ok.
  - intros [|[|f]] n cov E; cbn in E; [injection E as <- <-|injection E as <- <-|discriminate]; (split; [sorts|]; split; [lia|]); intros s I; cbn in I; repeat (destruct I as [<-|I]; [cbn; lia|]); destruct I.
  - split; [lia|]. split; [lia|]. intros [|[|f]] i I; cbn in I; repeat (destruct I as [<-|I]; [cbn; lia|]); destruct I.
  - cbn. repeat constructor; cbn; lia.
  - intros l1 c fs l2 f g E F G. destruct l1 as [|x [|y [|z l1]]]; cbn in E; try discriminate; try (destruct l1; discriminate); injection E; intros; subst; cbn in *; intuition (subst; cbn in *; intuition (try discriminate; lia)).
  - cbn. repeat constructor; cbn; lia.
  - intros _ [|[|f]] n cov E; cbn in E; [injection E as <- <-|injection E as <- <-|discriminate]; lia.
  - intros _ [|[|f]] n cov l E L; cbn in E; [injection E as <- <-|injection E as <- <-|discriminate]; cbn in L; [destruct L as [<-|[]]|destruct L].
    constructor; [intros _ _; eexists; split; [now left|reflexivity]|]. intros l [<-|[]]. constructor; [intros _ H; now destruct H|intros l []].
Qed.
(** g: 6 * 1 + 60 * 2 + 600 * (1 + 11) = 7326; the inner loop has the weight 7200 / 60 for one iteration of the
    outer loop; f calls g twice *)
Example C73_example : exists s, estimate (progEx gEx fEx) 100 10 sccsEx = Some s /\ get (totF s) 0 = Some 7326%Z /\ get (selfF s) 0 = Some 1221%Z /\
  get (loopTot s) 1 = Some (7200%Z, 600%Z) /\ get (loopSelf s) 1 = Some (120%Z, 10%Z) /\ get (loopSelf s) 0 = Some (1220%Z, 10%Z) /\ get (totF s) 1 = Some 7347%Z /\ get (selfF s) 1 = Some 2449%Z.
Proof. eexists. split; [vm_compute; reflexivity|]. repeat split. Qed.

(** ** An entry count is truncated to 32 bits *)
Definition bigEx : func := Func false (Some ((2 ^ 32)%Z, [Seg 1 1 (2 ^ 32)])) [[Inst (Some (1, 1)) 1 CNone]] [].
Theorem C73_entry_refuted : ~ C73_claim (Conds false true).
Proof.
  intro C. destruct (C (progEx bigEx bigEx) 100%Z 10%Z cntEx [(false, [0])]) as (s & E & _); [|vm_compute in E; discriminate]. split.
  - exact cntEx_ok.
  - intros [|[|f]] n cov E; cbn in E; [injection E as <- <-|injection E as <- <-|discriminate]; (split; [sorts|]; split; [lia|]); intros s I; cbn in I; destruct I as [<-|[]]; cbn; lia.
  - split; [lia|]. split; [lia|]. intros [|[|f]] i I; cbn in I; repeat (destruct I as [<-|I]; [cbn; lia|]); destruct I.
  - cbn. repeat constructor; cbn; lia.
  - intros l1 c fs l2 f g E F G. destruct l1 as [|x [|y l1]]; cbn in E; try discriminate. injection E as <- <- <-. cbn in F. destruct F as [<-|[]]. destruct G.
  - cbn. constructor.
  - discriminate.
  - intros _ [|[|f]] n cov l E L; destruct L.
Qed.
Print Assumptions C73_entry_refuted.

(** ** A nest of loops which is not executed *)
Definition coldEx : func :=
  Func false (Some (1%Z, [Seg 1 1 1; Seg 2 1 0])) [[Inst (Some (1, 1)) 1 CNone]; [Inst (Some (2, 1)) 1 CNone]; [Inst (Some (3, 1)) 1 CNone]] [Loop (Some 0) 1 [1; 2] [Loop (Some 1) 2 [2] []]].
Theorem C73_outer_refuted : ~ C73_claim (Conds true false).
Proof.
  intro C. destruct (C (progEx coldEx (Func true None [] [])) 100%Z 10%Z cntEx [(false, [0])]) as (s & E & _); [|vm_compute in E; discriminate]. split.
  - exact cntEx_ok.
  - intros [|[|f]] n cov E; cbn in E; [injection E as <- <-|discriminate|discriminate]; (split; [sorts|]; split; [lia|]); intros s I; cbn in I; destruct I as [<-|[<-|[]]]; cbn; lia.
  - split; [lia|]. split; [lia|]. intros [|[|f]] i I; cbn in I; repeat (destruct I as [<-|I]; [cbn; lia|]); destruct I.
  - cbn. repeat constructor; cbn; lia.
  - intros l1 c fs l2 f g E F G. destruct l1 as [|x [|y l1]]; cbn in E; try discriminate. injection E as <- <- <-. cbn in F. destruct F as [<-|[]]. destruct G.
  - cbn. repeat constructor; cbn; lia.
  - intros _ [|[|f]] n cov E; cbn in E; [injection E as <- <-|discriminate|discriminate]; lia.
  - discriminate.
Qed.
Print Assumptions C73_outer_refuted.

(** ** The total weight of a function is distributed over its calls up to rounding *)
Theorem C73_mean_partial : forall fn unkF unkB cnt sccs s f n cov, wfProg (Conds true true) fn unkF unkB cnt sccs -> estimate fn unkF unkB sccs = Some s ->
  In f (straight sccs) -> fDecl (fn f) = false -> fProf (fn f) = Some (n, cov) -> (0 < n)%Z ->
  exists T w, get (totF s) f = Some T /\ get (selfF s) f = Some w /\ (n * w <= T < n * w + n)%Z.
Proof.
  intros fn unkF unkB cnt sccs s f n cov W E I FD FP N. destruct (C73_weights_partial fn unkF unkB cnt sccs W) as (s2 & E2 & SP & _). rewrite E in E2. injection E2 as <-.
  destruct (SP f I n cov FD FP) as (T & G1 & _ & G2 & _). exists T, (T / calls n)%Z. split; [exact G1|]. split; [exact G2|]. unfold calls. rewrite Z.max_r by lia. pose proof (Z.mul_div_le T n N). pose proof (Z.mul_succ_div_gt T n N). lia.
Qed.
Print Assumptions C73_mean_partial.
Example C73_mean_example : exists s, estimate (progEx gEx fEx) 100 10 sccsEx = Some s /\ exists T w, get (totF s) 0 = Some T /\ get (selfF s) 0 = Some w /\ (6 * w <= T < 6 * w + 6)%Z.
Proof.
  destruct C73_example as (s & E & _). exists s. split; [exact E|]. exact (C73_mean_partial _ _ _ _ _ s 0 6%Z _ C73_example_wf E (or_introl eq_refl) eq_refl eq_refl ltac:(lia)).
Qed.

(** ** A loop is not heavier than a loop which contains it *)
Lemma weights_perm unkF unkB cnt self cov (f : nat -> list inst) bs1 : forall bs2, NoDup bs1 -> incl bs1 bs2 -> (forall b i, In b bs2 -> In i (f b) -> 0 <= cnt cov i * weightOf unkF unkB self i)%Z ->
  (weights unkF unkB cnt self cov (flat_map f bs1) <= weights unkF unkB cnt self cov (flat_map f bs2))%Z.
Proof.
  assert (APP : forall a b, weights unkF unkB cnt self cov (a ++ b) = (weights unkF unkB cnt self cov a + weights unkF unkB cnt self cov b)%Z).
  { intros a b. unfold weights. rewrite map_app. induction (map _ a) as [|z l IH]; [reflexivity|]. cbn [app fold_right]. rewrite IH. ring. }
  assert (POS : forall is, (forall i, In i is -> 0 <= cnt cov i * weightOf unkF unkB self i)%Z -> (0 <= weights unkF unkB cnt self cov is)%Z).
  { intros is P. unfold weights. induction is as [|i is IH]; [cbn; lia|]. cbn [map fold_right]. assert (0 <= cnt cov i * weightOf unkF unkB self i)%Z by (apply P; now left).
    assert (0 <= fold_right Z.add 0 (map (fun i => cnt cov i * weightOf unkF unkB self i) is))%Z by (apply IH; intros j J; apply P; now right). lia. }
  induction bs1 as [|b bs1 IH]; intros bs2 ND INC P.
  - cbn [flat_map]. apply POS. intros i I. apply in_flat_map in I. destruct I as (b & B & I). exact (P b i B I).
  - inversion ND as [|? ? NB ND2]; subst. assert (BI : In b bs2) by (apply INC; now left). apply in_split in BI. destruct BI as (l1 & l2 & ->). cbn [flat_map]. rewrite flat_map_app. cbn [flat_map]. rewrite !APP.
    assert (I2 : incl bs1 (l1 ++ l2)). { intros x X. assert (Y : In x (l1 ++ b :: l2)) by (apply INC; now right). rewrite in_app_iff in *. destruct Y as [Y|[->|Y]]; [now left|now destruct NB|now right]. }
    assert (P2 : forall b0 i, In b0 (l1 ++ l2) -> In i (f b0) -> (0 <= cnt cov i * weightOf unkF unkB self i)%Z) by (intros b0 i B; apply P; rewrite in_app_iff in *; destruct B; [now left|right; now right]).
    specialize (IH (l1 ++ l2) ND2 I2 P2). rewrite flat_map_app, APP in IH. lia.
Qed.
Theorem C73_nested_partial : forall fn unkF unkB cnt sccs s f n cov i hdr bs subs j hdr2 bs2 subs2, wfProg (Conds true true) fn unkF unkB cnt sccs -> estimate fn unkF unkB sccs = Some s ->
  In f (straight sccs) -> fDecl (fn f) = false -> fProf (fn f) = Some (n, cov) -> In (Loop (Some i) hdr bs subs) (fLoops (fn f)) -> In (Loop (Some j) hdr2 bs2 subs2) subs ->
  NoDup bs2 -> incl bs2 bs -> exists T T2 w w2, get (loopTot s) i = Some (T, w) /\ get (loopTot s) j = Some (T2, w2) /\ (T2 <= T)%Z.
Proof.
  intros fn unkF unkB cnt sccs s f n cov i hdr bs subs j hdr2 bs2 subs2 W E I FD FP L1 L2 ND INC. pose proof W as [CNT WS (UF & UB & WC) _ _ _ WE WO].
  destruct (C73_weights_partial fn unkF unkB cnt sccs W) as (s2 & E2 & SP & EST). rewrite E in E2. injection E2 as <-. destruct (SP f I n cov FD FP) as (T0 & _ & _ & _ & LS).
  specialize (LS _ L1). inversion LS as [? ? ? ? ? T N G1 GT _ _ GS|]; subst. specialize (GS _ L2). inversion GS as [? ? ? ? ? T2 N2 G2 GT2 _ _ _|]; subst.
  eexists _, _, _, _. split; [exact G1|]. split; [exact G2|]. apply weights_perm; [exact ND|exact INC|]. intros b k B K. destruct (WS f n cov FP) as (SO & _ & CP). apply Z.mul_nonneg_nonneg; [exact (count_pos cnt CNT cov k SO CP)|].
  assert (KI : In k (concat (fBlocks (fn f)))).
  { apply in_concat. exists (nth b (fBlocks (fn f)) []). split; [|exact K]. destruct (Nat.lt_ge_cases b (length (fBlocks (fn f)))) as [L|L]; [now apply nth_In|]. rewrite nth_overflow in K by exact L. destruct K. }
  unfold weightOf. specialize (WC f k KI). destruct (iCall k) as [| | |g bi]; try lia. destruct (get (selfF s) g) as [w|] eqn:GG; [|destruct bi; lia].
  destruct (EST g ltac:(now rewrite GG)) as (IG & FDG & FPG). destruct (fProf (fn g)) as [[ng cg]|] eqn:FPG2; [|now destruct FPG].
  assert (0 <= w)%Z; [|lia]. revert w GG. assert (NN : nonneg s); [|intros w GG; exact (NN g w GG)].
  unfold estimate in E. rewrite run_straight in E. clear - E CNT UF UB W. pose proof W as [_ WS (_ & _ & WC) NDS OR NI WE WO].
  destruct (visitFunctions_ok fn unkF unkB cnt CNT UF UB WC) with (fs := straight sccs) (s := St [] [] [] []) as (s3 & E3 & X & _).
  - intros f0 n0 cov0 FP. destruct (WS f0 n0 cov0 FP) as (S1 & S2 & S3). specialize (WE eq_refl f0 n0 cov0 FP). split; [exact S1|]. split; [lia|exact S3].
  - exact (WO eq_refl).
  - intros g w G. discriminate.
  - now apply straight_ordered.
  - now apply straight_nodup.
  - refine (NoDup_sub _ _ _ _ NI). intro f0. unfold idsF. destruct (est fn f0); [now left|now right].
  - intros i _. split; intros [].
  - intros f0 _. split; intros [].
  - rewrite E in E3. injection E3 as <-. refine (nonneg_ext _ _ _ _ _ X). intros g w G. discriminate.
Qed.
Print Assumptions C73_nested_partial.
Example C73_nested_example : exists s, estimate (progEx gEx fEx) 100 10 sccsEx = Some s /\ exists T T2 w w2, get (loopTot s) 0 = Some (T, w) /\ get (loopTot s) 1 = Some (T2, w2) /\ (T2 <= T)%Z.
Proof.
  destruct C73_example as (s & E & _). exists s. split; [exact E|]. refine (C73_nested_partial _ _ _ _ _ s 0 6%Z _ 0 1 [1; 2] _ 1 2 [2] [] C73_example_wf E (or_introl eq_refl) eq_refl eq_refl (or_introl eq_refl) (or_introl eq_refl) _ _).
  - repeat constructor. intros [].
  - intros x [<-|[]]. right. now left.
Qed.

(** ** A loop is not parallelized if and only if its mean weight for one call is less than the threshold *)
Theorem C73_threshold_partial : forall fn unkF unkB cnt sccs s f n cov i hdr bs subs t, wfProg (Conds true true) fn unkF unkB cnt sccs -> estimate fn unkF unkB sccs = Some s ->
  In f (straight sccs) -> fDecl (fn f) = false -> fProf (fn f) = Some (n, cov) -> In (Loop (Some i) hdr bs subs) (fLoops (fn f)) ->
  heavy s i t = false <-> (weights unkF unkB cnt (get (selfF s)) cov (flat_map (fun b => nth b (fBlocks (fn f)) []) bs) < t * Z.max 1 n)%Z.
Proof.
  intros fn unkF unkB cnt sccs s f n cov i hdr bs subs t W E I FD FP L.
  destruct (C73_weights_partial fn unkF unkB cnt sccs W) as (s2 & E2 & SP & _). rewrite E in E2. injection E2 as <-. destruct (SP f I n cov FD FP) as (T0 & _ & _ & _ & LS).
  specialize (LS _ L). inversion LS as [? ? ? ? ? T N _ GT _ GS _|]; subst. unfold heavy. rewrite GS. cbn [fst]. unfold calls.
  set (V := weights _ _ _ _ _ _). set (m := Z.max 1 n). assert (M : (0 < m)%Z) by (unfold m; lia). rewrite negb_false_iff, Z.ltb_lt.
  split; intro H.
  - pose proof (Z.mul_succ_div_gt V m M). apply Z.lt_le_trans with (m * Z.succ (V / m))%Z; [lia|]. rewrite (Z.mul_comm t m). apply Z.mul_le_mono_nonneg_l; lia.
  - apply Z.div_lt_upper_bound; [exact M|lia].
Qed.
Print Assumptions C73_threshold_partial.
Example C73_threshold_example : exists s, estimate (progEx gEx fEx) 100 10 sccsEx = Some s /\ heavy s 0 1220 = true /\ heavy s 0 1221 = false.
Proof. eexists. split; [vm_compute; reflexivity|]. split; reflexivity. Qed.
