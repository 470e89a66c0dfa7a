(** Proofs about the search for arguments which are not captured (C56). *)
From Coq Require Import ZArith List Bool Lia.
From Verif Require Import CaptureModel CaptureSpec.
Import ListNotations.
Local Open Scope Z_scope.

Section F.
Variable F : func.
Variable A : attributes.

Definition holds (reg : registry) (c : constraint) : Prop :=
  match c with
  | Fail | Crash => False
  | Ok None => True
  | Ok (Some (n, r)) => reg n = Some r
  end.
Definition ext (reg reg' : registry) : Prop := forall n r, reg n = Some r -> reg' n = Some r.
Lemma ext_refl reg : ext reg reg.
Proof. intros n r H; exact H. Qed.
Lemma ext_trans a b c : ext a b -> ext b c -> ext a c.
Proof. intros H1 H2 n r H. apply H2, H1, H. Qed.
Lemma holds_ext reg reg' c : ext reg reg' -> holds reg c -> holds reg' c.
Proof. intros E. destruct c as [| |[[n r]|]]; cbn [holds]; auto. Qed.

Lemma addNode_go s c s' : addNode s c = Go s' ->
  ext (sReg s) (sReg s') /\ holds (sReg s') c /\ sSeen s' = sSeen s /\
  (forall v, In v (sQueue s) -> In v (sQueue s')) /\
  (forall v r, sReg s' v = Some r -> sReg s v = Some r \/ In v (sQueue s')).
Proof.
  unfold addNode. destruct c as [| |[[n r]|]]; try discriminate.
  - destruct (sReg s n) as [r'|] eqn:E.
    + destruct (r' =? r) eqn:E2; [|discriminate]. intros H. injection H as <-. apply Z.eqb_eq in E2. subst r'.
      repeat split; auto using ext_refl.
    + intros H. injection H as <-. cbn [sReg sSeen sQueue]. repeat split.
      * intros x q Hx. unfold insert. destruct (Nat.eqb_spec n x) as [<-|]; [congruence|exact Hx].
      * cbn [holds]. unfold insert. rewrite Nat.eqb_refl. reflexivity.
      * intros v Hv. apply in_or_app. left. exact Hv.
      * intros v q. unfold insert. destruct (Nat.eqb_spec n v) as [<-|]; intros Hv.
        -- right. apply in_or_app. right. left. reflexivity.
        -- left. exact Hv.
  - intros H. injection H as <-. repeat split; auto using ext_refl.
Qed.

(** [i] was visited as a user of [v] *)
Definition visited (reg : registry) (i : nat) : Prop :=
  exists v k r ins, In (i, k) (fUses F v) /\ fInstr F i = Some ins /\ reg v = Some r /\ 0 <= r /\
  holds reg (applyUsageConstraint A i ins k r).
Lemma visited_ext reg reg' i : ext reg reg' -> visited reg i -> visited reg' i.
Proof. intros E (v & k & r & ins & H1 & H2 & H3 & H4 & H5). exists v, k, r, ins. repeat split; auto. revert H5. apply holds_ext, E. Qed.

Lemma visitUses_go v r : forall us s s', incl us (fUses F v) -> sReg s v = Some r -> 0 <= r ->
  (forall i, In i (sSeen s) -> visited (sReg s) i) ->
  visitUses F A r us s = Go s' ->
  ext (sReg s) (sReg s') /\
  (forall i, In i (sSeen s) -> In i (sSeen s')) /\
  (forall i k, In (i, k) us -> In i (sSeen s')) /\
  (forall i, In i (sSeen s') -> visited (sReg s') i) /\
  (forall v, In v (sQueue s) -> In v (sQueue s')) /\
  (forall v r, sReg s' v = Some r -> sReg s v = Some r \/ In v (sQueue s')).
Proof.
  induction us as [|[i k] us IH]; intros s s' Hincl Hv Hr Hseen H; cbn [visitUses] in H.
  - injection H as <-. repeat split; auto using ext_refl. intros i k [].
  - destruct (fInstr F i) as [ins|] eqn:Ei; [|discriminate].
    assert (Hincl' : incl us (fUses F v)) by (intros x Hx; apply Hincl; right; exact Hx).
    destruct (existsb (Nat.eqb i) (sSeen s)) eqn:Es.
    + destruct (IH s s' Hincl' Hv Hr Hseen H) as (H1 & H2 & H3 & H4 & H5 & H6).
      repeat split; auto. intros i' k' [E|E].
      * injection E as <- <-. apply existsb_exists in Es. destruct Es as (x & Hx & Ex).
        apply Nat.eqb_eq in Ex. subst x. apply H2, Hx.
      * apply (H3 i' k'), E.
    + destruct (addNode _ _) as [s1|] eqn:Ea; [|discriminate].
      destruct (addNode_go _ _ _ Ea) as (A1 & A2 & A3 & A4 & A5).
      cbn [sReg sSeen sQueue] in A1, A3, A4, A5.
      assert (Hv1 : sReg s1 v = Some r) by (apply A1, Hv).
      assert (Hseen1 : forall j, In j (sSeen s1) -> visited (sReg s1) j).
      { intros j. rewrite A3. intros [<-|Hj].
        - exists v, k, r, ins. repeat split; auto. apply Hincl. left. reflexivity.
        - apply (visited_ext (sReg s)); [exact A1|]. apply Hseen, Hj. }
      destruct (IH s1 s' Hincl' Hv1 Hr Hseen1 H) as (H1 & H2 & H3 & H4 & H5 & H6).
      repeat split.
      * apply (ext_trans _ (sReg s1)); auto.
      * intros j Hj. apply H2. rewrite A3. right. exact Hj.
      * intros i' k' [E|E]; [|apply (H3 i' k'), E]. injection E as <- <-. apply H2. rewrite A3. left. reflexivity.
      * exact H4.
      * intros w Hw. apply H5, A4, Hw.
      * intros w q Hw. destruct (H6 w q Hw) as [Hw'|]; [|right; assumption].
        destruct (A5 w q Hw') as [|Hq]; [left; assumption|]. right. apply H5, Hq.
Qed.

(** What is known about a value which was taken from the queue *)
Definition done (reg : registry) (seen : list nat) (v : nat) (r : Z) : Prop :=
  holds reg (applyDefinitionConstraint F A v r) /\ forall i k, In (i, k) (fUses F v) -> In i seen.
Definition Inv (s : state) : Prop :=
  (forall i, In i (sSeen s) -> visited (sReg s) i) /\
  (forall v r, sReg s v = Some r -> 0 <= r -> In v (sQueue s) \/ done (sReg s) (sSeen s) v r).
Definition closed (reg : registry) : Prop :=
  exists seen, (forall i, In i seen -> visited reg i) /\ (forall v r, reg v = Some r -> 0 <= r -> done reg seen v r).
Lemma loop_closed : forall fuel s reg, Inv s -> loop F A fuel s = NotCaptured reg -> ext (sReg s) reg /\ closed reg.
Proof.
  induction fuel as [|fuel IH]; intros s reg [I1 I2] H; cbn [loop] in H.
  - destruct (sQueue s) as [|v q] eqn:Eq; [|discriminate]. injection H as <-. split; [apply ext_refl|].
    exists (sSeen s). split; [exact I1|]. intros v r Hv Hr. destruct (I2 v r Hv Hr) as [[]|]; assumption.
  - destruct (sQueue s) as [|v q] eqn:Eq.
    + injection H as <-. split; [apply ext_refl|].
      exists (sSeen s). split; [exact I1|]. intros v r Hv Hr. destruct (I2 v r Hv Hr) as [[]|]; assumption.
    + cbn [sReg] in H. destruct (sReg s v) as [r|] eqn:Ev; [|discriminate].
      destruct (r <? 0) eqn:Er.
      * apply Z.ltb_lt in Er. apply IH in H; [exact H|]. split; cbn [sReg sSeen sQueue]; [exact I1|].
        intros w p Hw Hp. destruct (I2 w p Hw Hp) as [[<-|Hq]|Hd]; [rewrite Ev in Hw; injection Hw as <-; lia|left; exact Hq|right; exact Hd].
      * apply Z.ltb_ge in Er. destruct (addNode _ _) as [s1|] eqn:Ea; [|].
        2:{ unfold addNode in Ea. destruct (applyDefinitionConstraint F A v r) as [| |[[n rr]|]].
            - injection Ea as <-. discriminate.
            - injection Ea as <-. discriminate.
            - cbn [sReg] in Ea. destruct (sReg s n); [|discriminate]. destruct (z =? rr); [discriminate|]. injection Ea as <-. discriminate.
            - discriminate. }
        destruct (addNode_go _ _ _ Ea) as (A1 & A2 & A3 & A4 & A5). cbn [sReg sSeen sQueue] in A1, A3, A4, A5.
        destruct (visitUses F A r (fUses F v) s1) as [s2|o] eqn:Eu.
        2:{ exfalso. clear - Eu H. revert s1 Eu. generalize (fUses F v). subst o.
            induction l as [|[i k] l IHl]; intros s1 Eu; cbn [visitUses] in Eu; [discriminate|].
            destruct (fInstr F i) as [ins|]; [|discriminate].
            destruct (existsb (Nat.eqb i) (sSeen s1)); [apply (IHl s1), Eu|].
            destruct (addNode _ _) as [s2|o] eqn:Ea; [apply (IHl s2), Eu|]. injection Eu as ->.
            unfold addNode in Ea. destruct (applyUsageConstraint A i ins k r) as [| |[[n rr]|]]; try discriminate.
            cbn [sReg] in Ea. destruct (sReg s1 n); [|discriminate]. destruct (z =? rr); discriminate. }
        assert (Hseen1 : forall j, In j (sSeen s1) -> visited (sReg s1) j).
        { intros j. rewrite A3. intros Hj. apply (visited_ext (sReg s)); [exact A1|]. apply I1, Hj. }
        destruct (visitUses_go v r (fUses F v) s1 s2 (incl_refl _) (A1 _ _ Ev) Er Hseen1 Eu) as (H1 & H2 & H3 & H4 & H5 & H6).
        apply IH in H.
        -- destruct H as [E C]. split; [|exact C]. apply (ext_trans _ (sReg s1)); [exact A1|]. apply (ext_trans _ (sReg s2)); assumption.
        -- split; [exact H4|]. intros w p Hw Hp.
           destruct (H6 w p Hw) as [Hw1|]; [|left; assumption].
           destruct (A5 w p Hw1) as [Hw0|Hq]; [|left; apply H5, Hq].
           destruct (I2 w p Hw0 Hp) as [[<-|Hq]|[D1 D2]].
           ++ right. rewrite Ev in Hw0. injection Hw0 as <-. split; [|exact H3].
              apply (holds_ext (sReg s1)); assumption.
           ++ left. apply H5, A4, Hq.
           ++ right. split.
              ** apply (holds_ext (sReg s)); [|exact D1]. apply (ext_trans _ (sReg s1)); assumption.
              ** intros i k Hi. apply H2. rewrite A3. apply (D2 i k), Hi.
Qed.
Theorem isCaptured_closed fuel Arg reg : isCaptured F A fuel Arg = NotCaptured reg -> reg Arg = Some 0 /\ closed reg.
Proof.
  intros H. apply loop_closed in H.
  - destruct H as [E C]. split; [|exact C]. apply E. cbn [sReg]. unfold insert. rewrite Nat.eqb_refl. reflexivity.
  - split; cbn [sReg sSeen sQueue]; [intros i []|]. intros v r. unfold insert.
    destruct (Nat.eqb_spec Arg v) as [->|]; [|discriminate]. intros _ _. left. left. reflexivity.
Qed.

(** ** What a closed registry says *)
Section Reg.
Variable reg : registry.
Hypothesis HU : usesRight F.
Hypothesis HC : closed reg.
Lemma use_visited v r i k ins : reg v = Some r -> 0 <= r -> fInstr F i = Some ins -> nth_error (operands ins) k = Some v -> visited reg i.
Proof.
  destruct HC as (seen & C1 & C2). intros Hv Hr Hi Hk. destruct (C2 v r Hv Hr) as [_ D]. apply C1, (D i k), HU.
  exists ins. split; assumption.
Qed.
Lemma def_holds v r : reg v = Some r -> 0 <= r -> holds reg (applyDefinitionConstraint F A v r).
Proof. destruct HC as (seen & C1 & C2). intros Hv Hr. apply (C2 v r Hv Hr). Qed.
Ltac vis H := destruct H as (u & k0 & r0 & ins0 & U1 & U2 & U3 & U4 & U5).
Lemma k_store_value i v p r : fInstr F i = Some (IStore v p) -> reg v = Some r -> 0 <= r -> reg p = Some (r + 1).
Proof.
  intros Hi Hv Hr. pose proof (use_visited v r i 0 _ Hv Hr Hi eq_refl) as H. vis H.
  rewrite Hi in U2. injection U2 as <-. apply HU in U1. destruct U1 as (ins & E & K). rewrite Hi in E. injection E as <-.
  cbn [applyUsageConstraint] in U5. destruct k0 as [|[|k0]]; cbn [Nat.eqb holds operands nth_error] in *.
  - injection K as <-. congruence.
  - injection K as <-. rewrite Hv in U5. injection U5 as ->. rewrite U3. f_equal. lia.
  - destruct k0; discriminate.
Qed.
Lemma k_store_pointer i v p r : fInstr F i = Some (IStore v p) -> reg p = Some r -> 0 <= r -> reg v = Some (r - 1).
Proof.
  intros Hi Hv Hr. pose proof (use_visited p r i 1 _ Hv Hr Hi eq_refl) as H. vis H.
  rewrite Hi in U2. injection U2 as <-. apply HU in U1. destruct U1 as (ins & E & K). rewrite Hi in E. injection E as <-.
  cbn [applyUsageConstraint] in U5. destruct k0 as [|[|k0]]; cbn [Nat.eqb holds operands nth_error] in *.
  - injection K as <-. rewrite Hv in U5. injection U5 as ->. rewrite U3. f_equal. lia.
  - injection K as <-. congruence.
  - destruct k0; discriminate.
Qed.
Lemma k_load i p r : fInstr F i = Some (ILoad p) -> reg p = Some r -> 0 <= r -> reg i = Some (r - 1).
Proof.
  intros Hi Hv Hr. pose proof (use_visited p r i 0 _ Hv Hr Hi eq_refl) as H. vis H.
  rewrite Hi in U2. injection U2 as <-. apply HU in U1. destruct U1 as (ins & E & K). rewrite Hi in E. injection E as <-.
  cbn [applyUsageConstraint holds] in U5. destruct k0 as [|k0]; cbn [operands nth_error] in K; [|destruct k0; discriminate].
  injection K as <-. congruence.
Qed.
Lemma k_bitcast i p r : fInstr F i = Some (IBitCast p) -> reg p = Some r -> 0 <= r -> reg i = Some r.
Proof.
  intros Hi Hv Hr. pose proof (use_visited p r i 0 _ Hv Hr Hi eq_refl) as H. vis H.
  rewrite Hi in U2. injection U2 as <-. apply HU in U1. destruct U1 as (ins & E & K). rewrite Hi in E. injection E as <-.
  cbn [applyUsageConstraint holds] in U5. destruct k0 as [|k0]; cbn [operands nth_error] in K; [|destruct k0; discriminate].
  injection K as <-. congruence.
Qed.
Lemma k_gep i b is r : fInstr F i = Some (IGep b is) -> reg b = Some r -> 0 <= r -> reg i = Some r.
Proof.
  intros Hi Hv Hr. pose proof (use_visited b r i 0 _ Hv Hr Hi eq_refl) as H. vis H.
  rewrite Hi in U2. injection U2 as <-. cbn [applyUsageConstraint holds] in U5.
  pose proof (def_holds i r0 U5 U4) as D. unfold applyDefinitionConstraint in D. rewrite Hi in D. cbn [holds] in D. congruence.
Qed.
Lemma k_call i c args v r k : uniformCalls F A -> fInstr F i = Some (ICall c args) -> reg v = Some r -> 0 <= r ->
  nth_error args k = Some v -> ~ mayKeep A c k.
Proof.
  intros HUn Hi Hv Hr Hk. pose proof (use_visited v r i k _ Hv Hr Hi Hk) as H. vis H.
  rewrite Hi in U2. injection U2 as <-. apply HU in U1. destruct U1 as (ins & E & K). rewrite Hi in E. injection E as <-.
  cbn [applyUsageConstraint] in U5. cbn [operands] in K.
  assert (L1 : (k < length args)%nat) by (apply nth_error_Some; congruence).
  assert (L2 : (k0 < length args)%nat) by (apply nth_error_Some; congruence).
  intros M. apply (HUn i c args k k0 Hi L1 L2) in M.
  destruct (callSuccess A c k0) eqn:Es; [|exact U5]. unfold callSuccess, mayKeep in *. destruct c as [g|]; [|discriminate].
  destruct (aVarArg A g), (aLib A g); cbn [andb] in Es; congruence.
Qed.
Lemma k_other i ops v r : fInstr F i = Some (IOther ops) -> reg v = Some r -> 0 <= r -> In v ops -> False.
Proof.
  intros Hi Hv Hr Hin. apply In_nth_error in Hin. destruct Hin as (k & Hk).
  pose proof (use_visited v r i k _ Hv Hr Hi Hk) as H. vis H.
  rewrite Hi in U2. injection U2 as <-. exact U5.
Qed.

(** ** The invariant of executions *)
Variable returns : nat -> nat -> bool.
Hypothesis HUn : uniformCalls F A.
Hypothesis HRk : returnedIsKept A returns.
Definition rankOf (st : nat -> status) (v : val) (k : Z) : Prop :=
  match v with
  | VInt => False
  | VPtr o _ true => k = 0
  | VPtr o _ false => exists s, st o = Local s /\ reg s = Some k /\ 1 <= k
  end.
(** the object is a local one of the given rank *)
Definition objRank (st : nat -> status) (o : nat) (k : Z) : Prop := exists s, st o = Local s /\ reg s = Some k /\ 1 <= k.
Record Good (s : mstate) : Prop := mkGood {
  g_used_env : forall x o off t, env s x = VPtr o off t -> stat s o <> Unused;
  g_used_mem : forall o off o' off' t, mem s o off = VPtr o' off' t -> stat s o' <> Unused;
  g_taint_env : forall x o off, env s x = VPtr o off true -> stat s o = Outside;
  g_taint_mem : forall o off o' off', mem s o off = VPtr o' off' true -> stat s o' = Outside;
  g_env : forall x k, rankOf (stat s) (env s x) k -> reg x = Some k;
  g_mem : forall o off k, rankOf (stat s) (mem s o off) k -> objRank (stat s) o (k + 1);
  g_env2 : forall x r o off t, reg x = Some r -> 1 <= r -> env s x = VPtr o off t -> objRank (stat s) o r;
  g_mem2 : forall o r off o' off' t, objRank (stat s) o r -> 2 <= r -> mem s o off = VPtr o' off' t -> objRank (stat s) o' (r - 1) }.
Lemma rank_nonneg st v k : rankOf st v k -> 0 <= k.
Proof. destruct v as [|o off [|]]; cbn [rankOf]; [intros []|lia|intros (s & _ & _ & H); lia]. Qed.
Lemma objRank_fun st o k l : objRank st o k -> objRank st o l -> k = l.
Proof. intros (s & H1 & H2 & _) (s' & H3 & H4 & _). congruence. Qed.
Lemma exposed_not_tracked s o k : Good s -> exposed s o -> ~ objRank (stat s) o k.
Proof.
  intros G E. revert k. induction E as [o Ho|o off o' off' t E IH Hm]; intros k (s0 & H1 & H2 & H3).
  - congruence.
  - apply (IH (k + 1)). apply (g_mem s G o off k). rewrite Hm. destruct t; cbn [rankOf].
    + pose proof (g_taint_mem s G _ _ _ _ Hm). congruence.
    + exists s0. auto.
Qed.
Lemma exposed_used s o : Good s -> exposed s o -> stat s o <> Unused.
Proof. intros G [x H|x off o' off' t _ H]; [congruence|]. apply (g_used_mem s G _ _ _ _ _ H). Qed.
Lemma foreign_untracked s v k : Good s -> foreign s v -> ~ rankOf (stat s) v k.
Proof.
  intros G [->|(o & off & -> & E)]; cbn [rankOf]; [auto|]. intros H. apply (exposed_not_tracked s o k G E). exact H.
Qed.
Lemma leads_rank s v : Good s -> leadsToTaint s v -> exists k, rankOf (stat s) v k.
Proof.
  intros G. induction 1 as [o off|o off off' t H IH].
  - exists 0. reflexivity.
  - destruct t; [exists 0; reflexivity|]. destruct IH as (k & Hk). exists (k + 1). cbn [rankOf].
    apply (g_mem s G o off' k Hk).
Qed.

(** a pointer operand which has a rank *)
Lemma ptr_rank s x o off t k : Good s -> env s x = VPtr o off t -> objRank (stat s) o k -> reg x = Some k /\ t = false.
Proof.
  intros G Hx Ho. destruct t.
  - pose proof (g_taint_env s G x o off Hx) as E. destruct Ho as (s0 & H1 & _). congruence.
  - split; [|reflexivity]. apply (g_env s G x k). rewrite Hx. exact Ho.
Qed.

(** assignment of a register *)
Lemma good_setEnv s i v : Good s ->
  (forall o off t, v = VPtr o off t -> stat s o <> Unused) ->
  (forall o off, v = VPtr o off true -> stat s o = Outside) ->
  (forall k, rankOf (stat s) v k -> reg i = Some k) ->
  (forall r o off t, reg i = Some r -> 1 <= r -> v = VPtr o off t -> objRank (stat s) o r) ->
  Good (setEnv s i v).
Proof.
  intros [] V1 V2 V3 V4. split; cbn [setEnv env mem stat]; auto.
  - intros x o off t. destruct (Nat.eqb_spec i x) as [<-|]; eauto.
  - intros x o off. destruct (Nat.eqb_spec i x) as [<-|]; eauto.
  - intros x k. destruct (Nat.eqb_spec i x) as [<-|]; eauto.
  - intros x r o off t. destruct (Nat.eqb_spec i x) as [<-|]; eauto.
Qed.
Lemma good_call s s' : Good s -> callEffect s s' -> Good s'.
Proof.
  intros G (E1 & E2 & E3). split; rewrite ?E1, ?E2; try (destruct G; assumption).
  - intros o off o' off' t H. destruct (E3 o off) as [Em|[Ho Fm]].
    + rewrite Em in H. apply (g_used_mem s G _ _ _ _ _ H).
    + destruct Fm as [Fm|(o1 & off1 & Fm & Ex)]; [congruence|]. rewrite Fm in H. injection H as <- <- <-. apply exposed_used; assumption.
  - intros o off o' off' H. destruct (E3 o off) as [Em|[Ho Fm]].
    + rewrite Em in H. apply (g_taint_mem s G _ _ _ _ H).
    + destruct Fm as [Fm|(o1 & off1 & Fm & Ex)]; congruence.
  - intros o off k H. destruct (E3 o off) as [Em|[Ho Fm]].
    + rewrite Em in H. apply (g_mem s G _ _ _ H).
    + exfalso. apply (foreign_untracked s _ k G Fm H).
  - intros o r off o' off' t Ho Hr H. destruct (E3 o off) as [Em|[Hx _]].
    + rewrite Em in H. apply (g_mem2 s G o r off o' off' t Ho Hr H).
    + exfalso. apply (exposed_not_tracked s o r G Hx Ho).
Qed.
(** a new object *)
Lemma good_alloc s i o c : Good s -> stat s o = Unused -> (forall off, c off = VInt) -> Good (alloc s i o c).
Proof.
  intros G Ho Hc.
  assert (OR : forall o' k, o <> o' -> objRank (stat s) o' k -> objRank (stat (alloc s i o c)) o' k).
  { intros o' k Hne (s0 & H1 & H2). exists s0. cbn [alloc stat]. destruct (Nat.eqb_spec o o'); [congruence|]. auto. }
  assert (OR' : forall o' k, o <> o' -> objRank (stat (alloc s i o c)) o' k -> objRank (stat s) o' k).
  { intros o' k Hne (s0 & H1 & H2). exists s0. cbn [alloc stat] in H1. destruct (Nat.eqb_spec o o'); [congruence|]. auto. }
  assert (RK : forall v k, (forall o' off t, v = VPtr o' off t -> o <> o') -> rankOf (stat (alloc s i o c)) v k -> rankOf (stat s) v k).
  { intros [|o' off [|]] k Hne; cbn [rankOf]; auto. apply OR'. apply (Hne o' off false). reflexivity. }
  assert (NE : forall x o' off t, env s x = VPtr o' off t -> o <> o').
  { intros x o' off t Hx ->. apply (g_used_env s G _ _ _ _ Hx Ho). }
  assert (NM : forall o1 off1 o' off t, mem s o1 off1 = VPtr o' off t -> o <> o').
  { intros o1 off1 o' off t Hx ->. apply (g_used_mem s G _ _ _ _ _ Hx Ho). }
  split.
  - intros x o' off t. cbn [alloc env stat]. destruct (Nat.eqb_spec i x) as [<-|].
    + intros H. injection H as <- _ _. rewrite Nat.eqb_refl. discriminate.
    + intros H. destruct (Nat.eqb_spec o o'); [discriminate|]. apply (g_used_env s G _ _ _ _ H).
  - intros o1 off1 o' off t. cbn [alloc mem stat]. destruct (Nat.eqb_spec o o1); [rewrite Hc; discriminate|].
    intros H. destruct (Nat.eqb_spec o o'); [discriminate|]. apply (g_used_mem s G _ _ _ _ _ H).
  - intros x o' off. cbn [alloc env stat]. destruct (Nat.eqb_spec i x) as [<-|]; [discriminate|].
    intros H. destruct (Nat.eqb_spec o o') as [<-|]; [destruct (NE _ _ _ _ H eq_refl)|]. apply (g_taint_env s G _ _ _ H).
  - intros o1 off1 o' off. cbn [alloc mem stat]. destruct (Nat.eqb_spec o o1); [rewrite Hc; discriminate|].
    intros H. destruct (Nat.eqb_spec o o') as [<-|]; [destruct (NM _ _ _ _ _ H eq_refl)|]. apply (g_taint_mem s G _ _ _ _ H).
  - intros x k. cbn [alloc env]. destruct (Nat.eqb_spec i x) as [<-|].
    + cbn [rankOf]. intros (s0 & H1 & H2 & _). cbn [alloc stat] in H1. rewrite Nat.eqb_refl in H1. injection H1 as <-. exact H2.
    + intros H. apply RK in H; [apply (g_env s G x k H)|]. intros o' off t Hx. apply (NE x o' off t Hx).
  - intros o1 off1 k. cbn [alloc mem]. destruct (Nat.eqb_spec o o1) as [<-|Hne]; [rewrite Hc; intros []|].
    intros H. apply RK in H; [|intros o' off t Hx; apply (NM _ _ _ _ _ Hx)]. apply OR; [exact Hne|]. apply (g_mem s G _ _ _ H).
  - intros x r o' off t Hr Hr1. cbn [alloc env]. destruct (Nat.eqb_spec i x) as [<-|].
    + intros H. injection H as <- _ _. exists i. cbn [alloc stat]. rewrite Nat.eqb_refl. auto.
    + intros H. apply OR; [apply (NE _ _ _ _ H)|]. apply (g_env2 s G x r o' off t Hr Hr1 H).
  - intros o1 r off1 o' off t Ho1 Hr. cbn [alloc mem]. destruct (Nat.eqb_spec o o1); [rewrite Hc; discriminate|].
    intros H. apply OR; [apply (NM _ _ _ _ _ H)|]. apply (g_mem2 s G o1 r off1 o' off t); auto.
Qed.

Lemma good_step s s' : Good s -> step F A returns true s s' -> Good s'.
Proof.
  intros G H. destruct H as
    [i v p o off t Hi Hp|i p o off t Hi Hp|i b is o off t off' Hi Hb|i x Hi|i o Hi Ho|i ops v Hi Hv
    |i args s' v Hi Hg He Hv|i g args s' v Hi Hg He Hv|i g args s' k x o off t off' Hi Hg He Hna Hret Hk Hx|i g args s' o c Hi Hg He Hna Ho Hc].
  - (* store *)
    split; cbn [setMem env mem stat]; try (destruct G; assumption).
    + intros o1 off1 o' off' t'. destruct (Nat.eqb o o1 && (off =? off1)); [apply (g_used_env s G)|apply (g_used_mem s G)].
    + intros o1 off1 o' off'. destruct (Nat.eqb o o1 && (off =? off1)); [apply (g_taint_env s G)|apply (g_taint_mem s G)].
    + intros o1 off1 k. destruct (Nat.eqb o o1 && (off =? off1)) eqn:E; [|apply (g_mem s G)].
      apply andb_true_iff in E. destruct E as [E _]. apply Nat.eqb_eq in E. subst o1.
      intros Hk. pose proof (rank_nonneg _ _ _ Hk) as Hk0. apply (g_env s G) in Hk.
      pose proof (k_store_value i v p k Hi Hk Hk0) as Hp1. apply (g_env2 s G p (k + 1) o off t Hp1); [lia|exact Hp].
    + intros o1 r off1 o' off' t' Ho1 Hr. destruct (Nat.eqb o o1 && (off =? off1)) eqn:E; [|apply (g_mem2 s G); assumption].
      apply andb_true_iff in E. destruct E as [E _]. apply Nat.eqb_eq in E. subst o1.
      intros Hv. destruct (ptr_rank s p o off t r G Hp Ho1) as [Hpr _].
      pose proof (k_store_pointer i v p r Hi Hpr ltac:(lia)) as Hvr.
      apply (g_env2 s G v (r - 1) o' off' t' Hvr); [lia|exact Hv].
  - (* load *)
    apply good_setEnv; [exact G|..].
    + intros o' off' t' H. apply (g_used_mem s G _ _ _ _ _ H).
    + intros o' off' H. apply (g_taint_mem s G _ _ _ _ H).
    + intros k Hk. pose proof (rank_nonneg _ _ _ Hk) as Hk0. apply (g_mem s G) in Hk.
      destruct (ptr_rank s p o off t (k + 1) G Hp Hk) as [Hpr _].
      rewrite (k_load i p (k + 1) Hi Hpr ltac:(lia)). f_equal. lia.
    + intros r o' off' t' Hr Hr1 Hm. pose proof (def_holds i r Hr ltac:(lia)) as D. unfold applyDefinitionConstraint in D.
      rewrite Hi in D. cbn [holds] in D. pose proof (g_env2 s G p (r + 1) o off t D ltac:(lia) Hp) as Ho.
      replace r with (r + 1 - 1) by lia. apply (g_mem2 s G o (r + 1) off o' off' t' Ho); [lia|exact Hm].
  - (* gep *)
    apply good_setEnv; [exact G|..].
    + intros o' off1 t' H. injection H as <- _ _. apply (g_used_env s G _ _ _ _ Hb).
    + intros o' off1 H. injection H as <- _ ->. apply (g_taint_env s G _ _ _ Hb).
    + intros k Hk. pose proof (rank_nonneg _ _ _ Hk) as Hk0.
      assert (Hk' : rankOf (stat s) (env s b) k) by (rewrite Hb; destruct t; exact Hk).
      apply (g_env s G) in Hk'. apply (k_gep i b is k Hi Hk' Hk0).
    + intros r o' off1 t' Hr Hr1 H. injection H as <- _ _. pose proof (def_holds i r Hr ltac:(lia)) as D. unfold applyDefinitionConstraint in D.
      rewrite Hi in D. cbn [holds] in D. apply (g_env2 s G b r o off t D Hr1 Hb).
  - (* bitcast *)
    apply good_setEnv; [exact G|..].
    + apply (g_used_env s G).
    + apply (g_taint_env s G).
    + intros k Hk. pose proof (rank_nonneg _ _ _ Hk) as Hk0. apply (g_env s G) in Hk. apply (k_bitcast i x k Hi Hk Hk0).
    + intros r o' off1 t' Hr Hr1 H. pose proof (def_holds i r Hr ltac:(lia)) as D. unfold applyDefinitionConstraint in D.
      rewrite Hi in D. cbn [holds] in D. apply (g_env2 s G x r o' off1 t' D Hr1 H).
  - (* alloca *) apply good_alloc; auto.
  - (* other *)
    assert (Hn : forall k, ~ rankOf (stat s) v k).
    { destruct Hv as [->|(x & Hx & ->)]; intros k Hk; [exact Hk|]. pose proof (rank_nonneg _ _ _ Hk) as Hk0.
      apply (g_env s G) in Hk. apply (k_other i ops x k Hi Hk Hk0 Hx). }
    apply good_setEnv; [exact G|..].
    + destruct Hv as [->|(x & Hx & ->)]; [discriminate|]. apply (g_used_env s G).
    + destruct Hv as [->|(x & Hx & ->)]; [discriminate|]. apply (g_taint_env s G).
    + intros k Hk. destruct (Hn k Hk).
    + intros r o off t Hr Hr1 _. pose proof (def_holds i r Hr ltac:(lia)) as D. unfold applyDefinitionConstraint in D.
      rewrite Hi in D. destruct D.
  - (* indirect call *)
    pose proof (good_call s s' G He) as G'. destruct He as (_ & E2 & _).
    apply good_setEnv; [exact G'|rewrite E2..].
    + intros o off t ->. destruct Hv as [|(o1 & off1 & E & Ex)]; [discriminate|]. injection E as <- _ _. apply exposed_used; assumption.
    + intros o off ->. destruct Hv as [|(o1 & off1 & E & Ex)]; discriminate.
    + intros k Hk. destruct (foreign_untracked s v k G Hv Hk).
    + intros r o off t Hr Hr1 _. pose proof (def_holds i r Hr ltac:(lia)) as D. unfold applyDefinitionConstraint in D.
      rewrite Hi in D. destruct D.
  - (* call *)
    pose proof (good_call s s' G He) as G'. destruct He as (_ & E2 & _).
    assert (Hv' : foreign s v) by (destruct Hv as [->|[H _]]; [left; reflexivity|exact H]).
    apply good_setEnv; [exact G'|rewrite E2..].
    + intros o off t ->. destruct Hv' as [|(o1 & off1 & E & Ex)]; [discriminate|]. injection E as <- _ _. apply exposed_used; assumption.
    + intros o off ->. destruct Hv' as [|(o1 & off1 & E & Ex)]; discriminate.
    + intros k Hk. destruct (foreign_untracked s v k G Hv' Hk).
    + intros r o off t Hr Hr1 Ev. pose proof (def_holds i r Hr ltac:(lia)) as D. unfold applyDefinitionConstraint in D.
      rewrite Hi in D. destruct Hv as [->|[_ Hna]]; [discriminate|]. rewrite Hna in D. destruct D.
  - (* an argument is returned *)
    pose proof (good_call s s' G He) as G'. destruct He as (_ & E2 & _).
    apply good_setEnv; [exact G'|rewrite E2..].
    + intros o1 off1 t1 H. injection H as <- _ _. apply (g_used_env s G _ _ _ _ Hx).
    + intros o1 off1 H. injection H as <- _ ->. apply (g_taint_env s G _ _ _ Hx).
    + intros k1 Hk1. exfalso. pose proof (rank_nonneg _ _ _ Hk1) as Hk0.
      assert (Hk' : rankOf (stat s) (env s x) k1) by (rewrite Hx; destruct t; exact Hk1).
      apply (g_env s G) in Hk'. apply (k_call i (Some g) args x k1 k HUn Hi Hk' Hk0 Hk). apply HRk, Hret.
    + intros r o1 off1 t1 Hr Hr1 _. pose proof (def_holds i r Hr ltac:(lia)) as D. unfold applyDefinitionConstraint in D.
      rewrite Hi, Hna in D. destruct D.
  - (* a new object *)
    pose proof (good_call s s' G He) as G'. destruct He as (_ & E2 & _).
    apply good_alloc; [exact G'|rewrite E2; exact Ho|]. intros off. destruct (Hc off) as [|[E _]]; [assumption|discriminate].
Qed.
Lemma good_steps s s' : Good s -> steps F A returns true s s' -> Good s'.
Proof. intros G. induction 1 as [|s1 s2 _ IH H]; [exact G|]. apply (good_step s1); assumption. Qed.
Lemma good_initial Arg s : reg Arg = Some 0 -> initial F Arg s -> Good s.
Proof.
  intros HA (H1 & H2 & H3 & H4).
  assert (NL : forall o k, ~ objRank (stat s) o k).
  { intros o k (s0 & E & _). destruct (H1 o); congruence. }
  split.
  - intros x o off t E. destruct (H2 x) as [|(o1 & off1 & E1 & E2)]; [congruence|]. rewrite E1 in E. injection E as <- _ _. congruence.
  - intros o off o' off' t E. destruct (H4 o off) as [|(o1 & off1 & E1 & E2)]; [congruence|]. rewrite E1 in E. injection E as <- _ _. congruence.
  - intros x o off E. destruct (H2 x) as [|(o1 & off1 & E1 & E2)]; [congruence|]. rewrite E1 in E. injection E as <- _ _. congruence.
  - intros o off o' off' E. destruct (H4 o off) as [|(o1 & off1 & E1 & E2)]; congruence.
  - intros x k. destruct (env s x) as [|o off [|]] eqn:E; cbn [rankOf]; [intros []| |intros H; destruct (NL _ _ H)].
    intros ->. destruct (H2 x) as [|(o1 & off1 & E1 & E2)]; [congruence|]. rewrite E1 in E. injection E as _ _ E.
    apply Nat.eqb_eq in E. subst x. exact HA.
  - intros o off k. destruct (H4 o off) as [->|(o1 & off1 & -> & E2)]; cbn [rankOf]; [intros []|intros H; destruct (NL _ _ H)].
  - intros x r o off t Hr Hr1 E. exfalso. pose proof (def_holds x r Hr ltac:(lia)) as D. unfold applyDefinitionConstraint in D.
    destruct (fInstr F x) as [ins|] eqn:Ei; [rewrite (H3 x ins Ei) in E; discriminate|].
    destruct (fLeaf F x); try destruct D. destruct (r =? 0) eqn:E0; [apply Z.eqb_eq in E0; lia|destruct D].
  - intros o r off o' off' t Ho. destruct (NL _ _ Ho).
Qed.
Lemma good_captures s : Good s -> ~ captures F A s.
Proof.
  intros G [i v p o off t Hi Hl Hp He|i c args k x Hi Hk Hl Hm|i ops x Hi Hx Hl].
  - destruct (leads_rank s _ G Hl) as (k & Hr). pose proof (rank_nonneg _ _ _ Hr) as Hk0. apply (g_env s G) in Hr.
    pose proof (k_store_value i v p k Hi Hr Hk0) as Hpr.
    apply (exposed_not_tracked s o (k + 1) G He). apply (g_env2 s G p (k + 1) o off t Hpr); [lia|exact Hp].
  - destruct (leads_rank s _ G Hl) as (r & Hr). pose proof (rank_nonneg _ _ _ Hr) as Hk0. apply (g_env s G) in Hr.
    apply (k_call i c args x r k HUn Hi Hr Hk0 Hk Hm).
  - destruct (leads_rank s _ G Hl) as (r & Hr). pose proof (rank_nonneg _ _ _ Hr) as Hk0. apply (g_env s G) in Hr.
    apply (k_other i ops x r Hi Hr Hk0 Hx).
Qed.
End Reg.
Theorem not_captured fuel Arg reg returns s s' :
  usesRight F -> uniformCalls F A -> returnedIsKept A returns ->
  isCaptured F A fuel Arg = NotCaptured reg -> initial F Arg s -> steps F A returns true s s' -> ~ captures F A s'.
Proof.
  intros HU HUn HRk HN HI HS. apply isCaptured_closed in HN. destruct HN as [HA HC].
  apply (good_captures reg HU HC HUn). apply (good_steps reg HU HC returns HUn HRk s); [|exact HS].
  apply (good_initial reg HC Arg); assumption.
Qed.
(** after the function, nothing known outside leads to the argument *)
Theorem not_captured_memory fuel Arg reg returns s s' o off :
  usesRight F -> uniformCalls F A -> returnedIsKept A returns ->
  isCaptured F A fuel Arg = NotCaptured reg -> initial F Arg s -> steps F A returns true s s' ->
  exposed s' o -> ~ leadsToTaint s' (mem s' o off).
Proof.
  intros HU HUn HRk HN HI HS Ho HL. apply isCaptured_closed in HN. destruct HN as [HA HC].
  assert (G : Good reg s').
  { apply (good_steps reg HU HC returns HUn HRk s); [|exact HS]. apply (good_initial reg HC Arg); assumption. }
  destruct (leads_rank reg s' _ G HL) as (k & Hk). apply (g_mem reg s' G) in Hk. apply (exposed_not_tracked reg s' o (k + 1) G Ho Hk).
Qed.

(** ** The search ends *)
Section Fin.
Variable vals : list nat.
Hypothesis HF : finiteValues F vals.
Hypothesis HU : usesRight F.
Definition unreg (reg : registry) : nat := length (filter (fun v => match reg v with None => true | Some _ => false end) (nodup Nat.eq_dec vals)).
Lemma unreg_insert reg n r : In n vals -> reg n = None -> S (unreg (insert reg n r)) = unreg reg.
Proof.
  intros Hn Hr. unfold unreg. assert (H : In n (nodup Nat.eq_dec vals)) by (apply nodup_In; exact Hn).
  pose proof (NoDup_nodup Nat.eq_dec vals) as ND. revert H ND. generalize (nodup Nat.eq_dec vals). intros l.
  assert (Heq : forall l, ~ In n l -> filter (fun v => match insert reg n r v with None => true | Some _ => false end) l =
                filter (fun v => match reg v with None => true | Some _ => false end) l).
  { induction l0 as [|x l0 IH]; intros Hx; [reflexivity|]. cbn [filter]. rewrite IH by (intros Hx'; apply Hx; right; exact Hx').
    unfold insert at 1. destruct (Nat.eqb_spec n x) as [->|]; [destruct Hx; left; reflexivity|reflexivity]. }
  induction l as [|x l IH]; intros H ND; [destruct H|]. inversion ND as [|y l' N1 N2 E]; subst. cbn [filter].
  destruct H as [->|H].
  - unfold insert at 1. rewrite Nat.eqb_refl, Hr, Heq by exact N1. reflexivity.
  - assert (Hne : n <> x) by (intros ->; contradiction).
    unfold insert at 1. destruct (Nat.eqb_spec n x) as [|_]; [contradiction|].
    destruct (reg x); cbn [length]; rewrite <- (IH H N2); reflexivity.
Qed.
Definition sane (s : state) : Prop := forall v, In v (sQueue s) -> In v vals /\ sReg s v <> None.
Definition measure (s : state) : nat := (length (sQueue s) + unreg (sReg s))%nat.
Lemma addNode_measure s c s' : sane s -> (forall n r, c = Ok (Some (n, r)) -> In n vals) -> addNode s c = Go s' ->
  sane s' /\ measure s' = measure s.
Proof.
  intros Hs Hc. unfold addNode. destruct c as [| |[[n r]|]]; try discriminate.
  - destruct (sReg s n) as [r'|] eqn:E.
    + destruct (r' =? r); [|discriminate]. intros H. injection H as <-. auto.
    + intros H. injection H as <-. pose proof (Hc n r eq_refl) as Hn. split.
      * intros v. cbn [sQueue sReg]. intros Hv. apply in_app_or in Hv. unfold insert. destruct (Nat.eqb_spec n v) as [<-|Hne].
        -- split; [exact Hn|discriminate].
        -- destruct Hv as [Hv|[Hv|[]]]; [apply Hs, Hv|congruence].
      * unfold measure. cbn [sQueue sReg]. rewrite app_length. cbn [length]. rewrite <- (unreg_insert (sReg s) n r Hn E). lia.
  - intros H. injection H as <-. auto.
Qed.
Lemma addNode_stop s c o : addNode s c = Stop o -> o <> OutOfFuel.
Proof.
  unfold addNode. destruct c as [| |[[n r]|]]; try (intros H; injection H as <-; discriminate); try discriminate.
  destruct (sReg s n); [|discriminate]. destruct (z =? r); [discriminate|]. intros H. injection H as <-. discriminate.
Qed.
Lemma def_in v r n q : In v vals -> applyDefinitionConstraint F A v r = Ok (Some (n, q)) -> In n vals.
Proof.
  intros Hv. destruct (HF v Hv) as [H1 _]. unfold applyDefinitionConstraint. destruct (fInstr F v) as [ins|] eqn:E.
  - specialize (H1 ins). destruct ins as [a b|p|b is|x| |[g|] args|ops]; try discriminate; try (destruct (aNoAlias A g); discriminate).
    + intros H. injection H as <- _. apply H1; [reflexivity|left; reflexivity].
    + intros H. injection H as <- _. apply H1; [reflexivity|left; reflexivity].
    + intros H. injection H as <- _. apply H1; [reflexivity|left; reflexivity].
  - destruct (fLeaf F v); try discriminate. destruct (r =? 0); discriminate.
Qed.
Lemma use_in v i k ins r n q : In v vals -> In (i, k) (fUses F v) -> fInstr F i = Some ins ->
  applyUsageConstraint A i ins k r = Ok (Some (n, q)) -> In n vals.
Proof.
  intros Hv Hu Hi. destruct (HF v Hv) as [_ H2]. pose proof (H2 i k Hu) as Hin. destruct (HF i Hin) as [H1 _]. specialize (H1 ins).
  destruct ins as [a b|p|b is|x| |c args|ops]; cbn [applyUsageConstraint]; try discriminate; try (intros H; injection H as <- _; exact Hin).
  - destruct (Nat.eqb k 1); intros H; injection H as <- _; apply H1; auto; cbn [operands]; [left|right; left]; reflexivity.
  - destruct (callSuccess A c k); discriminate.
Qed.
Lemma visitUses_measure v r : In v vals -> forall us s, incl us (fUses F v) -> sane s ->
  match visitUses F A r us s with
  | Go s' => sane s' /\ measure s' = measure s
  | Stop o => o <> OutOfFuel
  end.
Proof.
  intros Hv. induction us as [|[i k] us IH]; intros s Hi Hs; cbn [visitUses]; [auto|].
  assert (Hi' : incl us (fUses F v)) by (intros x Hx; apply Hi; right; exact Hx).
  destruct (fInstr F i) as [ins|] eqn:E; [|discriminate].
  destruct (existsb (Nat.eqb i) (sSeen s)); [apply IH; assumption|].
  destruct (addNode _ _) as [s1|o] eqn:Ea.
  - apply addNode_measure in Ea.
    + destruct Ea as [S1 M1]. specialize (IH s1 Hi' S1). destruct (visitUses F A r us s1); [|exact IH].
      destruct IH as [S2 M2]. split; [exact S2|]. rewrite M2, M1. reflexivity.
    + exact Hs.
    + intros n q Hc. apply (use_in v i k ins r n q Hv); auto. apply Hi. left. reflexivity.
  - apply (addNode_stop _ _ _ Ea).
Qed.
Lemma loop_ends : forall fuel s, sane s -> (measure s <= fuel)%nat -> loop F A fuel s <> OutOfFuel.
Proof.
  induction fuel as [|fuel IH]; intros s Hs Hm; cbn [loop].
  - destruct (sQueue s) as [|v q] eqn:Eq; [discriminate|]. unfold measure in Hm. rewrite Eq in Hm. cbn [length] in Hm. lia.
  - destruct (sQueue s) as [|v q] eqn:Eq; [discriminate|]. cbn [sReg].
    assert (Hv : In v vals /\ sReg s v <> None) by (apply Hs; rewrite Eq; left; reflexivity). destruct Hv as [Hv Hr].
    destruct (sReg s v) as [r|] eqn:Er; [|congruence].
    assert (S0 : sane (mkSt (sReg s) (sSeen s) q)) by (intros x Hx; apply Hs; rewrite Eq; right; exact Hx).
    assert (M0 : (S (measure (mkSt (sReg s) (sSeen s) q)) = measure s)%nat) by (unfold measure; cbn [sQueue sReg]; rewrite Eq; reflexivity).
    destruct (r <? 0); [apply IH; [exact S0|lia]|].
    destruct (addNode _ _) as [s1|o] eqn:Ea.
    + apply addNode_measure in Ea; [|exact S0|intros n p Hc; apply (def_in v r n p Hv Hc)]. destruct Ea as [S1 M1].
      pose proof (visitUses_measure v r Hv (fUses F v) s1 (incl_refl _) S1) as HV.
      destruct (visitUses F A r (fUses F v) s1) as [s2|o]; [|exact HV]. destruct HV as [S2 M2]. apply IH; [exact S2|lia].
    + apply (addNode_stop _ _ _ Ea).
Qed.
Theorem isCaptured_ends Arg fuel : In Arg vals -> (length vals <= fuel)%nat -> isCaptured F A fuel Arg <> OutOfFuel.
Proof.
  intros HA Hf. unfold isCaptured. apply loop_ends.
  - intros v [<-|[]]. cbn [sReg]. split; [exact HA|]. unfold insert. rewrite Nat.eqb_refl. discriminate.
  - unfold measure. cbn [sQueue sReg length]. pose proof (unreg_insert (fun _ => None) Arg 0 HA eq_refl) as HI.
    unfold unreg at 2 in HI. assert (E : forall l : list nat, filter (fun _ => true) l = l) by (induction l as [|x l IHl]; [reflexivity|cbn [filter]; rewrite IHl; reflexivity]).
    rewrite E in HI. assert (L : (length (nodup Nat.eq_dec vals) <= length vals)%nat).
    { apply NoDup_incl_length; [apply NoDup_nodup|]. intros x Hx. apply nodup_In in Hx. exact Hx. }
    lia.
Qed.
End Fin.
End F.
