(** C66: a loop which is accepted for parallelization gives the same results as the sequential one *)
From Coq Require Import List Bool Arith ZArith Permutation Sorted Lia.
From Verif Require Import ParLoopModel ParLoopSpec ParLoopSem ParLoopProof.
Import ListNotations.

(** Full claim: [C66_claim (fun _ _ => True)].  It holds if variables declared in the loop are
    automatic, the loop variable is not used after the loop, memory without other traits is written
    by the last iteration, and memory which has to be private is related with a variable. *)
Theorem C66_results_partial : C66_claim (fun l P => autoLocals l P /\ deadHead l P /\ lastKnown l /\ noUnknown l).
Proof. exact parLoop_ok. Qed.
Print Assumptions C66_results_partial.

(** Neither attributes of a loop nor traits which cannot be supported are ignored *)
Theorem C66_rejected : forall l cl, exploitLoop l = Some cl ->
  lSafe l = true /\ lHead l = Some (cInd cl) /\
  forall n, In n (lNodes l) -> nCov n = true ->
    dAddr (nDesc n) = false /\ dOutput (nDesc n) = false /\ (dDynamic (nDesc n) = true -> dShared (nDesc n) = true)
    /\ (dShared (nDesc n) || dReadonly (nDesc n) = false -> length (nMems n) <= 1).
Proof.
  intros l cl H. apply exploit_any in H. split; [|split; [exact (head_ind l cl [] H)|]].
  - destruct (exploit_spec l cl [] H) as (s & _ & PL & _). unfold parallelLoop in PL. now apply andb_true_iff in PL as [PL _].
  - intros n Hn Hc. destruct (exploit_spec l cl [] H) as (s & _ & PL & _). unfold parallelLoop in PL. apply andb_true_iff in PL as [_ PL].
    rewrite forallb_forall in PL. specialize (PL n Hn). unfold nodeParallel in PL. rewrite Hc in PL. cbn [negb] in PL.
    destruct (dAddr (nDesc n)); [discriminate|]. destruct (dOutput (nDesc n)); [discriminate|]. cbn [orb] in PL.
    split; [reflexivity|]. split; [reflexivity|]. split.
    + intros Hd. rewrite Hd in PL. destruct (dShared (nDesc n)); [reflexivity|discriminate].
    + intros Hs. rewrite Hs in PL. destruct (dDynamic (nDesc n) && negb (dShared (nDesc n))); [discriminate|].
      destruct (Nat.ltb_spec 1 (length (nMems n))) as [Hl|Hl]; [discriminate|exact Hl].
Qed.
Print Assumptions C66_rejected.

(** ** Examples *)
Definition d0 : desc := Desc false false false false false false false false false false false false false.
Definition dI : desc := Desc false false false true false false false false false false false false false.
Definition dP : desc := Desc false false false false true false false false false false false false false.
Definition dR : desc := Desc false false false false false true false false false false false false false.
Definition dL : desc := Desc false false false false false false false false false true false false false.
Definition dF : desc := Desc false false false false false false false false false false true false false.
Definition dS : desc := Desc false true false false false false false false false false false false false.
Definition mt (d : desc) (q : search) (r : option nat) : memT := MemT d q r None None false.
Definition nd (d : desc) (q : search) (r : option nat) : node := Node d [mt d q r] true.
Definition addOp (k : nat) (a b : Z) : Z := (a + b)%Z.
Lemma addOp_ok : reductionOp addOp (fun _ => 0%Z).
Proof. intros k. unfold addOp. repeat split; intros; lia. Qed.

(** a check of [privateCell] *)
Fixpoint wbrb (c : nat) (seen : bool) (evs : list event) : bool :=
  match evs with
  | [] => true
  | e :: r => let w := match e with EWr _ x => Nat.eqb x c | _ => false end in
              (if Nat.eqb (cellOf e) c then w || seen else true) && wbrb c (seen || w) r
  end.
Lemma wbrb_ok c : forall evs seen, wbrb c seen evs = true -> forall pre e post, evs = pre ++ e :: post -> cellOf e = c ->
  seen = true \/ (exists o, e = EWr o c) \/ exists o, In (EWr o c) pre.
Proof.
  induction evs as [|x evs IH]; intros seen H pre e post E Hc; [now apply app_cons_not_nil in E|].
  cbn [wbrb] in H. apply andb_true_iff in H as [H1 H2]. destruct pre as [|y pre].
  - injection E as -> ->. rewrite Hc, Nat.eqb_refl in H1. apply orb_true_iff in H1 as [H1|H1]; [|now left].
    right. left. destruct e as [o z|o z|o z r v]; try discriminate. apply Nat.eqb_eq in H1. subst. now exists o.
  - injection E as <- ->. destruct (IH _ H2 pre e post eq_refl Hc) as [H|[H|(o & H)]].
    + apply orb_true_iff in H as [H|H]; [now left|]. right. right. destruct x as [o z|o z|o z r v]; try discriminate. apply Nat.eqb_eq in H. subst. exists o. now left.
    + right. now left.
    + right. right. exists o. now right.
Qed.
Lemma wbr_cell op body m N c : (forall i, i < N -> wbrb c false (trace op body m i) = true) -> privateCell op body m N c.
Proof. intros H i Hi pre e post E Hc. destruct (wbrb_ok c _ false (H i Hi) pre e post E Hc) as [X|X]; [discriminate|exact X]. Qed.

(** for (int i = 0; i < 2; ++i) { t = i + 5; s += t; x = t; a[i] = t; } with [i], [t], [s], [x] and
    [a] being variables 0, 1, 2, 3, 4; [s], [x] and [a] are used after the loop *)
Definition exNodes : list node :=
  [nd dI (SLocal 0) None; nd dP (SLocal 1) None; nd dR (SLocal 2) (Some 1); nd dL (SGlobal 3) None; nd dS (SDerived 4 (Some (0, Strong))) None].
Definition exLoop : loopInfo := LoopInfo true exNodes [(0, 1); (1, 1); (2, 1); (3, 1); (4, 1)] [0] (Some 0) (fun _ _ => true).
Definition exBody (i : nat) : prog :=
  Wr false 0 (Z.of_nat i) (Rd false 0 (fun x => Wr false 1 (x + 5)%Z (Rd false 1 (fun t =>
    Up false 2 1 t (Wr false 3 t (Wr false (4 + i) t Done)))))).
Definition exHome (c : nat) : nat * memT :=
  match c with
  | 0 => (0, mt dI (SLocal 0) None) | 1 => (1, mt dP (SLocal 1) None) | 2 => (2, mt dR (SLocal 2) (Some 1))
  | 3 => (3, mt dL (SGlobal 3) None) | _ => (4, mt dS (SDerived 4 (Some (0, Strong))) None)
  end.
Definition exVar (c : nat) : option nat := match c with 0 | 1 | 2 | 3 => Some c | _ => Some 4 end.
Definition exProg : program :=
  Program addOp (fun _ => 0%Z) 2 exBody (fun _ => 7%Z) (fun c => 1 <? c) exVar exHome 2 (fun _ => true).


(** a program without calls is described by conditions for each cell *)
Definition cellOk (P : program) (n : node) (c : nat) : Prop :=
  let d := nDesc n in
  (dReadonly d = true -> readonlyCell (pOp P) (pBody P) (pMem P) (pN P) c)
  /\ (dShared d = true -> sharedCell (pOp P) (pBody P) (pMem P) (pN P) c)
  /\ (dInduction d || dPrivate d || dSecond d || dFirst d = true -> privateCell (pOp P) (pBody P) (pMem P) (pN P) c)
  /\ (dPrivate d = true -> pLive P c = false)
  /\ (dSecond d = true -> pLive P c = true -> lastCell (pOp P) (pBody P) (pMem P) (pN P) c)
  /\ (dReduction d = true -> forall k, mRed (snd (pHome P c)) = Some k -> reductionCell (pOp P) (pBody P) (pMem P) (pN P) k c).
Lemma truth_simple l P :
  (forall i e, i < pN P -> In e (pTrace P i) -> origOf e = false) ->
  (forall c, exists n, nth_error (lNodes l) (fst (pHome P c)) = Some n /\ In (snd (pHome P c)) (nMems n) /\ nCov n = true /\ cellOk P n c) ->
  (forall i n t v c, nth_error (lNodes l) i = Some n -> nCov n = true -> In t (nMems n) -> coincides (mSearch t) v -> (pVar P c = Some v <-> pHome P c = (i, t))) ->
  (forall i n t v c, nth_error (lNodes l) i = Some n -> nCov n = true -> In t (nMems n) -> varOfSearch (mSearch t) = Some v ->
    In v (lLocals l) -> pHome P c = (i, t) -> pVar P c = Some v) ->
  (forall n, In n (lNodes l) -> nMems n <> [] /\ forall t, In t (nMems n) -> mFlow t = None /\ mAnti t = None) ->
  (forall c v, pVar P c = Some v -> In v (lLocals l) -> pAuto P v = true -> privateCell (pOp P) (pBody P) (pMem P) (pN P) c /\ pLive P c = false) ->
  reductionOp (pOp P) (pIdent P) -> truth l P.
Proof.
  intros H1 H2 H3 H4 H5 H6 H7.
  assert (K : forall i n c, nth_error (lNodes l) i = Some n -> fst (pHome P c) = i -> cellOk P n c).
  { intros i n c Hn Hi. destruct (H2 c) as (m & M1 & _ & _ & M2). rewrite Hi in M1. congruence. }
  constructor; try assumption.
  - intros i c _ _. destruct (H2 c) as (n & A & B & C & _). now exists n.
  - intros i n c Hn _ _ Hi. apply (K i n c Hn Hi).
  - intros i n c Hn _ _ Hi. apply (K i n c Hn Hi).
  - intros i n c Hn _ _ Hi. apply (K i n c Hn Hi).
  - intros i n c Hn _ _ Hi. apply (K i n c Hn Hi).
  - intros i n c Hn _ _ Hi. apply (K i n c Hn Hi).
  - intros i n c k Hn _ _ Hi Hd. exact (proj2 (proj2 (proj2 (proj2 (proj2 (K i n c Hn Hi))))) Hd k).
  - intros i c Hi (e & E1 & _ & E2). rewrite (H1 i e Hi E1) in E2. discriminate.
  - intros h i c _ _ Hi (e & E1 & _ & E2). rewrite (H1 i e Hi E1) in E2. discriminate.
  - intros n Hn. destruct (H5 n Hn) as [A B]. split; [exact A|]. intros t Ht. destruct (B t Ht) as [-> ->]. split; congruence.
Qed.

Ltac iter i := destruct i as [|[|i]]; [| |exfalso; cbn in *; lia].
Ltac nodes i Hn := destruct i as [|[|[|[|[|[|i]]]]]]; cbn in Hn; try discriminate Hn; injection Hn as <-.
Ltac wbr := apply wbr_cell; let i := fresh "i" in let Hi := fresh "Hi" in intros i Hi; iter i; reflexivity.
Ltac orig := let i := fresh "i" in let e := fresh "e" in let Hi := fresh "Hi" in let He := fresh "He" in
  intros i e Hi He; iter i; cbn in He; repeat (destruct He as [<-|He]; [reflexivity|]); destruct He.

Lemma ex_truth : truth exLoop exProg.
Proof.
  apply truth_simple.
  - orig.
  - intros c. destruct c as [|[|[|[|c]]]]; (eexists; split; [reflexivity|]; split; [left; reflexivity|]; split; [reflexivity|]);
      unfold cellOk; cbn [nDesc nd dI dP dR dL dS dReadonly dShared dInduction dPrivate dSecond dFirst dReduction orb]; repeat split; try discriminate; try (intros _; wbr).
    + intros _ k Hk i Hi e He Hc. cbn in Hk. injection Hk as <-. iter i; cbn in He;
      repeat (destruct He as [<-|He]; [cbn in Hc; try discriminate Hc|]); try destruct He; eexists; eexists; reflexivity.
    + intros _ _ i Hi. injection Hi as <-. exists false. cbn. auto 10.
    + intros _ i j Hi Hj Hij (e & E1 & E2 & _) (f & F1 & F2).
      iter i; iter j; try (now apply Hij); cbn in E1, F1;
      repeat (destruct E1 as [<-|E1]; [cbn in E2; try discriminate E2|]); try destruct E1;
      repeat (destruct F1 as [<-|F1]; [cbn in F2; try discriminate F2|]); try destruct F1; congruence.
  - intros i n t v c Hn _ Ht Hw.
    nodes i Hn; destruct Ht as [<-|[]]; destruct Hw as [Hw|Hw]; try discriminate Hw; injection Hw as <-;
      destruct c as [|[|[|[|c]]]]; cbn; split; intros E; try discriminate E; reflexivity.
  - intros i n t v c Hn _ Ht Hw [<-|[]] Hh.
    nodes i Hn; destruct Ht as [<-|[]]; try discriminate Hw; destruct c as [|[|[|[|c]]]]; cbn in Hh; try discriminate Hh; reflexivity.
  - intros n [<-|[<-|[<-|[<-|[<-|[]]]]]]; (split; [discriminate|]); intros t [<-|[]]; now split.
  - intros c v Hv [<-|[]] _. destruct c as [|[|[|[|c]]]]; try discriminate Hv. split; [wbr|reflexivity].
  - exact addOp_ok.
Qed.

(** execution with a given order of actions of threads *)
Section Sched.
Variable op : nat -> Z -> Z -> Z.
Variable body : nat -> prog.
Variable priv : nat -> bool.
Fixpoint put (j : nat) (t : thread) (ts : list thread) : list thread :=
  match ts, j with [], _ => [] | _ :: ts, 0 => t :: ts | x :: ts, S j => x :: put j t ts end.
Fixpoint sched (js : list nat) (sh : mem) (ts : list thread) : mem * list thread :=
  match js with
  | [] => (sh, ts)
  | j :: js => match nth_error ts j with
               | Some t => match tstep op body priv sh t with Some (sh1, t1) => sched js sh1 (put j t1 ts) | None => (sh, ts) end
               | None => (sh, ts)
               end
  end.
Lemma sched_steps js : forall sh ts, psteps op body priv sh ts (fst (sched js sh ts)) (snd (sched js sh ts)).
Proof.
  induction js as [|j js IH]; intros sh ts; cbn [sched]; [constructor|].
  destruct (nth_error ts j) as [t|] eqn:E; [|constructor]. destruct (tstep op body priv sh t) as [[sh1 t1]|] eqn:Et; [|constructor].
  apply nth_error_split in E as (pre & post & -> & <-).
  assert (X : put (length pre) t1 (pre ++ t :: post) = pre ++ t1 :: post) by (clear; induction pre; cbn; congruence).
  rewrite X. econstructor; [exact Et|apply IH].
Qed.
End Sched.
(** Hypotheses of the claim hold for the example, each thread executes one iteration and their actions
    are interleaved *)
Definition exCl : clauses := Clauses [1] [3] [] [(1, 2)] 0.
Definition exThreads : list thread := [Thread [1] Done (fun c => match c with 2 => 0%Z | _ => 100%Z end); Thread [0] Done (fun c => match c with 2 => 0%Z | _ => (-3)%Z end)].
Example C66_results_ex :
  exploitLoop exLoop = Some exCl /\ truth exLoop exProg /\
  (autoLocals exLoop exProg /\ deadHead exLoop exProg /\ lastKnown exLoop /\ noUnknown exLoop) /\
  distributed 2 [[1]; [0]] /\
  Forall2 (starts (pIdent exProg) (pMem exProg) (varIn exProg (cFirst exCl)) (redOf exProg exCl)) [[1]; [0]] exThreads /\
  exists sh ts', psteps (pOp exProg) (pBody exProg) (privOf exProg exLoop exCl) (pMem exProg) exThreads sh ts' /\ Forall finished ts'
    /\ map (parFinal (pOp exProg) (varIn exProg (cLast exCl)) (redOf exProg exCl) 2 [[1]; [0]] sh ts') [2; 3; 4; 5] = [18; 6; 5; 6]%Z
    /\ map (seqFinal exProg exCl) [2; 3; 4; 5] = [18; 6; 5; 6]%Z.
Proof.
  split; [reflexivity|]. split; [exact ex_truth|]. split; [|split; [|split]].
  - split; [intros v _; reflexivity|]. split; [|split].
    + intros h c Hh Hv. injection Hh as <-. destruct c as [|[|[|[|c]]]]; try discriminate Hv. reflexivity.
    + intros n [<-|[<-|[<-|[<-|[<-|[]]]]]] _ H; try discriminate H; reflexivity.
    + intros n t [<-|[<-|[<-|[<-|[<-|[]]]]]] _ H [<-|[]]; discriminate.
  - split; [apply perm_swap|]. repeat constructor.
  - unfold exThreads. repeat constructor; try (intros c Hf; exfalso; unfold varIn in Hf; destruct (pVar exProg c); discriminate Hf).
    + intros c k Hr. destruct c as [|[|[|[|c]]]]; try discriminate Hr. cbn in Hr. injection Hr as <-. reflexivity.
    + intros c k Hr. destruct c as [|[|[|[|c]]]]; try discriminate Hr. cbn in Hr. injection Hr as <-. reflexivity.
  - eexists; eexists. split; [exact (sched_steps _ _ _ [0; 1; 0; 0; 1; 1; 0; 1; 1; 0; 0; 1; 0; 1; 0; 1] _ _)|].
    split; [repeat constructor|]. split; reflexivity.
Qed.

(** ** What is missing *)
(** A static variable declared in the loop is treated as a private one, though it is shared:
    for (int i = 0; i < 2; ++i) { static int x; x = i + 5; } *)
Definition stNodes : list node := [nd dI (SLocal 0) None; nd dL (SLocal 1) None].
Definition stHome (c : nat) : nat * memT := match c with 0 => (0, mt dI (SLocal 0) None) | _ => (1, mt dL (SLocal 1) None) end.
Definition stVar (c : nat) : option nat := match c with 0 => Some 0 | _ => Some 1 end.
Definition stBody (i : nat) : prog := Wr false 0 (Z.of_nat i) (Rd false 0 (fun x => Wr false 1 (x + 5)%Z Done)).
Definition stLoop : loopInfo := LoopInfo true stNodes [(0, 1); (1, 1)] [0; 1] (Some 0) (fun _ _ => true).
Definition stProg : program :=
  Program addOp (fun _ => 0%Z) 2 stBody (fun _ => 7%Z) (fun c => Nat.eqb c 1) stVar stHome 2 (fun v => Nat.eqb v 0).
Ltac cells c := destruct c as [|[|c]].
Ltac okCell := unfold cellOk; cbn [nDesc nd d0 dI dP dR dL dF dS dReadonly dShared dInduction dPrivate dSecond dFirst dReduction orb]; repeat split; try discriminate; try (intros _; wbr).
Lemma st_truth : truth stLoop stProg.
Proof.
  apply truth_simple.
  - orig.
  - intros c. cells c; (eexists; split; [reflexivity|]; split; [left; reflexivity|]; split; [reflexivity|]); okCell.
    intros _ _ i Hi. injection Hi as <-. exists false. cbn. auto 10.
  - intros i n t v c Hn _ Ht Hw. nodes i Hn; destruct Ht as [<-|[]]; destruct Hw as [Hw|Hw]; try discriminate Hw; injection Hw as <-;
      cells c; cbn; split; intros E; try discriminate E; reflexivity.
  - intros i n t v c Hn _ Ht Hw _ Hh.
    nodes i Hn; destruct Ht as [<-|[]]; injection Hw as <-; cells c; cbn in Hh; try discriminate Hh; reflexivity.
  - intros n [<-|[<-|[]]]; (split; [discriminate|]); intros t [<-|[]]; now split.
  - intros c v Hv [<-|[<-|[]]] Ha; [|discriminate Ha]. cells c; try discriminate Hv. split; [wbr|reflexivity].
  - exact addOp_ok.
Qed.
Lemma parts2 : distributed 2 [[1]; [0]].
Proof. split; [apply perm_swap|]. repeat constructor. Qed.
Definition twoThreads : list thread := [Thread [1] Done (fun _ => 7%Z); Thread [0] Done (fun _ => 7%Z)].
Lemma refute (cond : loopInfo -> program -> Prop) l P cl js c :
  exploitLoop l = Some cl -> truth l P -> cond l P -> pN P = 2 ->
  Forall2 (starts (pIdent P) (pMem P) (varIn P (cFirst cl)) (redOf P cl)) [[1]; [0]] twoThreads ->
  let r := sched (pOp P) (pBody P) (privOf P l cl) js (pMem P) twoThreads in
  Forall finished (snd r) -> pLive P c = true ->
  parFinal (pOp P) (varIn P (cLast cl)) (redOf P cl) 2 [[1]; [0]] (fst r) (snd r) c <> seqFinal P cl c -> ~ C66_claim cond.
Proof.
  intros H1 H2 H3 H4 H5 r H6 H7 H8 H. apply H8. rewrite <- H4.
  apply (H l P cl [[1]; [0]] twoThreads (fst r) (snd r)); try assumption; [rewrite H4; apply parts2|apply sched_steps].
Qed.
Theorem C66_static_refuted : ~ C66_claim (fun l P => deadHead l P /\ lastKnown l /\ noUnknown l).
Proof.
  apply (refute _ stLoop stProg (Clauses [] [] [] [] 0) [0; 0; 0; 0; 1; 1; 1; 1] 1 eq_refl st_truth); [|reflexivity| | |reflexivity|discriminate].
  - split; [|split].
    + intros h c Hh Hv. injection Hh as <-. cells c; try discriminate Hv. reflexivity.
    + intros n [<-|[<-|[]]] _ E; try discriminate E; reflexivity.
    + intros n t [<-|[<-|[]]] _ E [<-|[]]; discriminate.
  - unfold twoThreads. repeat constructor; intros c k Hr; cells c; discriminate Hr.
  - repeat constructor.
Qed.
Print Assumptions C66_static_refuted.

(** A value of the loop variable is lost: for (i = 0; i < 2; ++i) { a[i] = 5; } use(i); *)
Definition hdNodes : list node := [nd dI (SLocal 0) None; nd dS (SDerived 1 (Some (0, Strong))) None].
Definition hdHome (c : nat) : nat * memT := match c with 0 => (0, mt dI (SLocal 0) None) | _ => (1, mt dS (SDerived 1 (Some (0, Strong))) None) end.
Definition hdBody (i : nat) : prog := Wr false 0 (Z.of_nat i) (Wr false (1 + i) 5%Z Done).
Definition hdLoop : loopInfo := LoopInfo true hdNodes [(0, 1); (1, 1)] [] (Some 0) (fun _ _ => true).
Definition hdProg : program := Program addOp (fun _ => 0%Z) 2 hdBody (fun _ => 7%Z) (fun _ => true) stVar hdHome 2 (fun _ => true).
Lemma hd_truth : truth hdLoop hdProg.
Proof.
  apply truth_simple.
  - orig.
  - intros c. cells c; (eexists; split; [reflexivity|]; split; [left; reflexivity|]; split; [reflexivity|]); okCell.
    all: intros _ i j Hi Hj Hij (e & E1 & E2 & _) (f & F1 & F2); iter i; iter j; try (now apply Hij); cbn in E1, F1;
      repeat (destruct E1 as [<-|E1]; [cbn in E2; try discriminate E2|]); try destruct E1;
      repeat (destruct F1 as [<-|F1]; [cbn in F2; try discriminate F2|]); try destruct F1; congruence.
  - intros i n t v c Hn _ Ht Hw. nodes i Hn; destruct Ht as [<-|[]]; destruct Hw as [Hw|Hw]; try discriminate Hw; injection Hw as <-;
      cells c; cbn; split; intros E; try discriminate E; reflexivity.
  - intros i n t v c Hn _ Ht Hw [].
  - intros n [<-|[<-|[]]]; (split; [discriminate|]); intros t [<-|[]]; now split.
  - intros c v Hv [].
  - exact addOp_ok.
Qed.
Theorem C66_induction_refuted : ~ C66_claim (fun l P => autoLocals l P /\ lastKnown l /\ noUnknown l).
Proof.
  apply (refute _ hdLoop hdProg (Clauses [] [] [] [] 0) [0; 0; 0; 1; 1; 1] 0 eq_refl hd_truth); [|reflexivity| | |reflexivity|discriminate].
  - split; [|split].
    + intros v [].
    + intros n [<-|[<-|[]]] _ E; discriminate E.
    + intros n t [<-|[<-|[]]] _ E [<-|[]]; discriminate.
  - unfold twoThreads. repeat constructor; intros c k Hr; cells c; discriminate Hr.
  - repeat constructor.
Qed.
Print Assumptions C66_induction_refuted.

(** A value of a variable which is not written by the last but one iteration of the head is lost:
    the variable is not lastprivate *)
Definition fsNodes : list node := [nd dI (SLocal 0) None; nd dF (SLocal 1) None].
Definition fsHome (c : nat) : nat * memT := match c with 0 => (0, mt dI (SLocal 0) None) | _ => (1, mt dF (SLocal 1) None) end.
Definition fsLoop : loopInfo := LoopInfo true fsNodes [(0, 1); (1, 1)] [0] (Some 0) (fun _ _ => true).
Definition fsProg : program := Program addOp (fun _ => 0%Z) 2 stBody (fun _ => 7%Z) (fun c => Nat.eqb c 1) stVar fsHome 2 (fun _ => true).
Lemma fs_truth : truth fsLoop fsProg.
Proof.
  apply truth_simple.
  - orig.
  - intros c. cells c; (eexists; split; [reflexivity|]; split; [left; reflexivity|]; split; [reflexivity|]); okCell.
  - intros i n t v c Hn _ Ht Hw. nodes i Hn; destruct Ht as [<-|[]]; destruct Hw as [Hw|Hw]; try discriminate Hw; injection Hw as <-;
      cells c; cbn; split; intros E; try discriminate E; reflexivity.
  - intros i n t v c Hn _ Ht Hw [<-|[]] Hh.
    nodes i Hn; destruct Ht as [<-|[]]; try discriminate Hw; cells c; cbn in Hh; try discriminate Hh; reflexivity.
  - intros n [<-|[<-|[]]]; (split; [discriminate|]); intros t [<-|[]]; now split.
  - intros c v Hv [<-|[]] _. cells c; try discriminate Hv. split; [wbr|reflexivity].
  - exact addOp_ok.
Qed.
Theorem C66_last_refuted : ~ C66_claim (fun l P => autoLocals l P /\ deadHead l P /\ noUnknown l).
Proof.
  apply (refute _ fsLoop fsProg (Clauses [] [] [1] [] 0) [0; 0; 0; 0; 1; 1; 1; 1] 1 eq_refl fs_truth); [|reflexivity| | |reflexivity|discriminate].
  - split; [|split].
    + intros v _; reflexivity.
    + intros h c Hh Hv. injection Hh as <-. cells c; try discriminate Hv. reflexivity.
    + intros n t [<-|[<-|[]]] _ E [<-|[]]; discriminate.
  - unfold twoThreads. repeat constructor; intros c k Hr; cells c; discriminate Hr.
  - repeat constructor.
Qed.
Print Assumptions C66_last_refuted.

(** Memory which has to be private is not related with a variable: it remains shared *)
Definition unNodes : list node := [nd dI (SLocal 0) None; nd dP SUnknown None; nd dS (SDerived 2 (Some (0, Strong))) None].
Definition unHome (c : nat) : nat * memT :=
  match c with 0 => (0, mt dI (SLocal 0) None) | 1 => (1, mt dP SUnknown None) | _ => (2, mt dS (SDerived 2 (Some (0, Strong))) None) end.
Definition unVar (c : nat) : option nat := match c with 0 => Some 0 | 1 => None | _ => Some 2 end.
Definition unBody (i : nat) : prog :=
  Wr false 0 (Z.of_nat i) (Rd false 0 (fun x => Wr false 1 (x + 5)%Z (Rd false 1 (fun t => Wr false (2 + i) t Done)))).
Definition unLoop : loopInfo := LoopInfo true unNodes [(0, 1); (2, 1)] [0] (Some 0) (fun _ _ => true).
Definition unProg : program := Program addOp (fun _ => 0%Z) 2 unBody (fun _ => 7%Z) (fun c => 1 <? c) unVar unHome 2 (fun _ => true).
Lemma un_truth : truth unLoop unProg.
Proof.
  apply truth_simple.
  - orig.
  - intros c. cells c; (eexists; split; [reflexivity|]; split; [left; reflexivity|]; split; [reflexivity|]); okCell.
    all: intros _ i j Hi Hj Hij (e & E1 & E2 & _) (f & F1 & F2); iter i; iter j; try (now apply Hij); cbn in E1, F1;
      repeat (destruct E1 as [<-|E1]; [cbn in E2; try discriminate E2|]); try destruct E1;
      repeat (destruct F1 as [<-|F1]; [cbn in F2; try discriminate F2|]); try destruct F1; congruence.
  - intros i n t v c Hn _ Ht Hw. nodes i Hn; destruct Ht as [<-|[]]; destruct Hw as [Hw|Hw]; try discriminate Hw; injection Hw as <-;
      cells c; cbn; split; intros E; try discriminate E; reflexivity.
  - intros i n t v c Hn _ Ht Hw [<-|[]] Hh.
    nodes i Hn; destruct Ht as [<-|[]]; try discriminate Hw; cells c; cbn in Hh; try discriminate Hh; reflexivity.
  - intros n [<-|[<-|[<-|[]]]]; (split; [discriminate|]); intros t [<-|[]]; now split.
  - intros c v Hv [<-|[]] _. cells c; try discriminate Hv. split; [wbr|reflexivity].
  - exact addOp_ok.
Qed.
Theorem C66_unknown_refuted : ~ C66_claim (fun l P => autoLocals l P /\ deadHead l P /\ lastKnown l).
Proof.
  apply (refute _ unLoop unProg (Clauses [] [] [] [] 0) [1; 1; 1; 1; 0; 0; 0; 0; 0; 0; 1; 1] 2 eq_refl un_truth); [|reflexivity| | |reflexivity|discriminate].
  - split; [|split].
    + intros v _; reflexivity.
    + intros h c Hh Hv. injection Hh as <-. cells c; try discriminate Hv. reflexivity.
    + intros n [<-|[<-|[<-|[]]]] _ E; discriminate E.
  - unfold twoThreads. repeat constructor; intros c k Hr; cells c; discriminate Hr.
  - repeat constructor.
Qed.
Print Assumptions C66_unknown_refuted.

(** ** References *)
(** Memory of a node describes the [i]-th dereference of a variable without doubts *)
Definition describes (q : search) (v i : nat) : Prop :=
  ((q = SLocal v \/ q = SGlobal v) /\ i = 0) \/ q = SDerived v (Some (i, Strong)).
Section Slots.
Variable src : nat -> nat -> Prop.
Definition slotsOk (s : state) : Prop := forall v i, In ((v, i), Strong) (sSlots s) -> src v i.
Lemma findDecl_slots q s : (forall v i, describes q v i -> src v i) -> slotsOk s -> slotsOk (findDecl q s).
Proof.
  intros H K. destruct q as [v|v|v [[n k]|]| | | |]; cbn [findDecl]; try exact K; intros w i [E|E]; try exact (K w i E).
  - injection E as <- <-. apply H. left. auto.
  - injection E as <- <-. apply H. left. auto.
  - injection E as <- <- ->. apply H. right. reflexivity.
Qed.
Variable l : loopInfo.
Lemma localize_slots n q s s' r : (forall v i, describes q v i -> src v i) -> slotsOk s -> localize l n q s = (s', r) -> slotsOk s'.
Proof.
  intros H K E. pose proof (findDecl_slots q s H K) as F. unfold localize in E.
  destruct (varOfSearch q) as [v|]; [destruct (isIn v (lLocals l))|]; [|destruct q|destruct q]; injection E as <- _; exact F.
Qed.
Lemma localizeTo_slots add n q s s' r : (forall v s, sSlots (add v s) = sSlots s) -> (forall v i, describes q v i -> src v i) ->
  slotsOk s -> localizeTo l add n q s = (s', r) -> slotsOk s'.
Proof.
  intros A H K E. unfold localizeTo in E. destruct (localize l n q s) as [s1 [[v ok] loc]] eqn:L.
  pose proof (localize_slots _ _ _ _ _ H K L) as F. destruct ok; cbn [negb] in E; [|injection E as <- _; exact F].
  destruct v as [v|]; [destruct loc|]; injection E as <- _; try exact F. intros w i. rewrite A. exact (F w i).
Qed.
Lemma slots_or (ok : bool) s : slotsOk s -> slotsOk (if ok then s else diag s).
Proof. destruct ok; auto. Qed.
Definition from (ts : list memT) : Prop := forall t v i, In t ts -> describes (mSearch t) v i -> src v i.
Lemma from_cons t ts : from (t :: ts) -> (forall v i, describes (mSearch t) v i -> src v i) /\ from ts.
Proof. intros H; split; [intros v i; apply H; now left|intros u v i A; apply H; now right]. Qed.
Lemma localizeAll_slots add n : (forall v s, sSlots (add v s) = sSlots s) -> forall ts s, from ts -> slotsOk s -> slotsOk (localizeAll l add n ts s).
Proof.
  intros A; induction ts as [|t ts IH]; intros s H K; cbn [localizeAll]; [exact K|].
  apply from_cons in H; destruct H as [H1 H]. destruct (localizeTo l add n (mSearch t) s) as [s1 ok] eqn:E.
  apply IH; [exact H|]. apply slots_or. exact (localizeTo_slots _ _ _ _ _ _ A H1 K E).
Qed.
Lemma evalInduction_slots n : forall ts s, from ts -> slotsOk s -> slotsOk (evalInduction l n ts s).
Proof.
  induction ts as [|t ts IH]; intros s H K; cbn [evalInduction]; [exact K|].
  apply from_cons in H; destruct H as [H1 H]. destruct (localize l n (mSearch t) s) as [s1 [[v ok] loc]] eqn:E.
  pose proof (localize_slots _ _ _ _ _ H1 K E) as F. apply IH; [exact H|].
  destruct v as [v|]; [destruct (lHead l) as [h|]; [destruct (ok && Nat.eqb h v)|]|]; exact F.
Qed.
Lemma red_add k v s : sSlots ((if Nat.eqb k 0 then noAdd else addRed k) v s) = sSlots s.
Proof. destruct (Nat.eqb k 0); reflexivity. Qed.
Lemma evalReductionTail_slots n k : forall ts s, from ts -> slotsOk s -> slotsOk (evalReductionTail l n k ts s).
Proof.
  induction ts as [|t ts IH]; intros s H K; cbn [evalReductionTail]; [exact K|].
  apply from_cons in H; destruct H as [H1 H]. apply IH; [exact H|].
  destruct (match mRed t with Some k' => Nat.eqb k' k | None => false end).
  - destruct (localizeTo l (if Nat.eqb k 0 then noAdd else addRed k) n (mSearch t) s) as [s1 ok] eqn:E.
    apply slots_or. exact (localizeTo_slots _ _ _ _ _ _ (red_add k) H1 K E).
  - exact (findDecl_slots _ _ H1 K).
Qed.
Lemma evalReduction_slots n ts s : from ts -> slotsOk s -> slotsOk (evalReduction l n ts s).
Proof.
  intros H K. destruct ts as [|t ts]; cbn [evalReduction]; [exact K|]. apply from_cons in H; destruct H as [H1 H].
  destruct (localizeTo l (if Nat.eqb (redKind t) 0 then noAdd else addRed (redKind t)) n (mSearch t)
    (if Nat.eqb (redKind t) 0 then diag (findDecl (mSearch t) s) else s)) as [s1 ok] eqn:E.
  apply evalReductionTail_slots; [exact H|]. apply slots_or.
  eapply localizeTo_slots; [exact (red_add (redKind t))|exact H1| |exact E].
  destruct (Nat.eqb (redKind t) 0); [exact (findDecl_slots _ _ H1 K)|exact K].
Qed.
Lemma evalDependence_slots q ts : (forall v i, describes q v i -> src v i) -> forall s, slotsOk s -> slotsOk (evalDependence q ts s).
Proof.
  intros H; induction ts as [|t ts IH]; intros s K; cbn [evalDependence]; [exact K|]. apply IH.
  destruct (distOk (mFlow t) && distOk (mAnti t)); [|exact K].
  pose proof (findDecl_slots q s H K) as F. destruct (varOfSearch q); exact F.
Qed.
Lemma findAllDecls_slots ts : forall s, from ts -> slotsOk s -> slotsOk (findAllDecls ts s).
Proof.
  induction ts as [|t ts IH]; intros s H K; [exact K|]. apply from_cons in H; destruct H as [H1 H].
  exact (IH _ H (findDecl_slots _ _ H1 K)).
Qed.
Lemma evalNode_slots i n s : (nCov n = true -> from (nMems n)) -> slotsOk s -> slotsOk (evalNode l i n s).
Proof.
  intros H K. unfold evalNode. destruct (nCov n); cbn [negb]; [|exact K]. specialize (H eq_refl).
  destruct (dShared (nDesc n) || dReadonly (nDesc n)); [now apply findAllDecls_slots|].
  destruct (dInduction (nDesc n)); [now apply evalInduction_slots|].
  destruct (dPrivate (nDesc n)); [now apply localizeAll_slots|].
  destruct (dReduction (nDesc n)); [now apply evalReduction_slots|].
  destruct (_ && _).
  - destruct (nMems n) as [|t ts] eqn:E; [exact K|]. apply evalDependence_slots; [|exact K]. exact (proj1 (from_cons _ _ H)).
  - assert (F : slotsOk (if dSecond (nDesc n) then localizeAll l addLast i (nMems n) s else s)).
    { destruct (dSecond (nDesc n)); [now apply localizeAll_slots|exact K]. }
    destruct (dFirst (nDesc n)); [now apply localizeAll_slots|exact F].
Qed.
Lemma evalNodes_slots : forall xs i s, (forall n, In n xs -> nCov n = true -> from (nMems n)) -> slotsOk s -> slotsOk (evalNodes l i xs s).
Proof.
  induction xs as [|x xs IH]; intros i s H K; cbn [evalNodes]; [exact K|].
  apply IH; [intros n A; apply H; now right|]. apply evalNode_slots; [|exact K]. apply H. now left.
Qed.
End Slots.
Lemma slotOf_in k m d : slotOf k m = Some d -> In (k, d) m.
Proof.
  induction m as [|[k' d'] m IH]; cbn [slotOf]; [discriminate|].
  destruct (Nat.eqb_spec (fst k) (fst k')) as [A|A]; [destruct (Nat.eqb_spec (snd k) (snd k')) as [B|B]|]; cbn [andb]; intros E;
    try (right; exact (IH E)). left. injection E as ->. f_equal. destruct k, k'; cbn in *; congruence.
Qed.
(** Each reference in an accepted loop is described by known memory for each level of dereference, or a
    referenced variable is declared in the loop *)
Theorem C66_references : forall l cl, exploitLoop l = Some cl ->
  forall v k, In (v, k) (lRefs l) -> ~ In v (lLocals l) -> forall i, i < k ->
  exists n t, In n (lNodes l) /\ nCov n = true /\ In t (nMems n) /\ describes (mSearch t) v i.
Proof.
  intros l cl H v k R N i Hi. apply exploit_any in H. destruct (exploit_spec l cl [] H) as (s & E & _).
  unfold evaluate in E. destruct (lHead l) as [h|]; [|discriminate E].
  destruct (sDiag _); cbn [orb] in E; [discriminate E|]. destruct (negb (globalsOk _ _)); cbn [orb] in E; [discriminate E|].
  destruct (forallb (refOk l (evalNodes l 0 (lNodes l) state0)) (lRefs l)) eqn:F; [|discriminate E]. clear E.
  rewrite forallb_forall in F. specialize (F _ R). unfold refOk in F. cbn [fst snd] in F.
  apply orb_true_iff in F. destruct F as [F|F]; [now apply in_isIn_iff in F|].
  rewrite forallb_forall in F. specialize (F i ltac:(apply in_seq; lia)).
  destruct (slotOf (v, i) _) as [[]|] eqn:S; try discriminate F. apply slotOf_in in S.
  apply (evalNodes_slots (fun v i => exists n t, In n (lNodes l) /\ nCov n = true /\ In t (nMems n) /\ describes (mSearch t) v i)
    l (lNodes l) 0 state0); [| |exact S].
  - intros n A C t w j B D. exists n, t. auto.
  - intros w j [].
Qed.
Print Assumptions C66_references.
Example C66_references_ex : exploitLoop exLoop = Some (Clauses [1] [3] [] [(1, 2)] 0) /\ In (4, 1) (lRefs exLoop) /\ ~ In 4 (lLocals exLoop).
Proof. split; [reflexivity|]. split; [do 4 right; left; reflexivity|]. intros [E|[]]. discriminate E. Qed.
