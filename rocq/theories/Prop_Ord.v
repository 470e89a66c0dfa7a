(** C67: a parallel loop with regular dependencies is ordered *)
From Coq Require Import List Bool Arith ZArith Permutation Sorted Lia.
From Verif Require Import ParLoopModel ParLoopSpec ParLoopSem ParLoopProof Prop_ParLoop OrdModel OrdSpec OrdSem OrdProof.
Import ListNotations.

(** ** Nests *)
(** Full claim: [C67_cover_claim (fun _ _ _ _ => True)].  It holds for loops with unit steps if ranges of
    distances for inner loops are symmetric. *)
Theorem C67_cover_partial : C67_cover_claim (fun lv lvs n steps => unitSteps steps /\
  forall k l d, nth_error (lv :: lvs) k = Some l -> S k < n -> In d (lvDeps l) -> symmetric (dvFlow d) /\ symmetric (dvAnti d)).
Proof. exact cover_ok. Qed.
Print Assumptions C67_cover_partial.
(** for (i...) for (j...) A[i][j] = A[i-1][j] + A[i-1][j-1] + A[i-1][j+1] *)
Definition lvOut (r : list range) : level := Level true 0 [Dist r []] [] [] [] [] true true.
Definition lvIn : level := Level true 1 [] [] [] [] [] true false.
Example C67_cover_ex :
  exploitNest (lvOut [(1, 1); (-1, 1)]%Z) [lvIn] = Nest 2 [] [[-1; -1]; [-1; 0]; [-1; 1]]%Z /\ unitSteps [1; 1]%Z /\
  (forall k l d, nth_error [lvOut [(1, 1); (-1, 1)]%Z; lvIn] k = Some l -> S k < 2 -> In d (lvDeps l) -> symmetric (dvFlow d) /\ symmetric (dvAnti d)) /\
  carried 0 [(1, 1); (-1, 1)]%Z [2; 1]%Z [1; 2]%Z.
Proof.
  split; [reflexivity|]. split; [repeat constructor|]. split.
  - intros [|k] l d Hk Hn Hd; [|lia]. injection Hk as <-. destruct Hd as [<-|[]]. split; repeat constructor.
  - cbn. lia.
Qed.
(** Distances of inner loops are not negated: for (i...) for (j...) A[i][j] = A[i-1][j-1] is parallelized
    with depend(sink: i-1, j+1) *)
Theorem C67_sign_refuted : ~ C67_cover_claim (fun _ _ _ steps => unitSteps steps).
Proof.
  intros H. specialize (H (lvOut [(1, 1); (1, 1)]%Z) [lvIn] 2 [] [[-1; 1]]%Z [2; 2]%Z [1; 1]%Z eq_refl eq_refl ltac:(repeat constructor)
    0 (lvOut [(1, 1); (1, 1)]%Z) (Dist [(1, 1); (1, 1)]%Z []) [(1, 1); (1, 1)]%Z [1; 1]%Z [0; 0]%Z eq_refl ltac:(lia) (or_introl eq_refl) (or_introl eq_refl)
    ltac:(discriminate) eq_refl eq_refl ltac:(cbn; lia) ltac:(cbn; lia) ltac:(cbn; lia)).
  assert (K : forall u, ~ waitsFor [2; 2]%Z [1; 1]%Z [[-1; 1]]%Z [1; 1]%Z u).
  { intros u (_ & Hu & v & [<-|[]] & Hr). destruct u as [|a [|b [|c u]]]; cbn [inSpace reaches] in Hu, Hr; try tauto; lia. }
  inversion H as [t u H1|t u w H1 H2]; subst; exact (K _ H1).
Qed.
Print Assumptions C67_sign_refuted.

(** Full claim: [C67_defined_claim (fun _ _ => True)].  There is no access out of range if distances are
    known for all inner loops. *)
Theorem C67_defined_partial : C67_defined_claim (fun lv lvs => allKnown (lv :: lvs)).
Proof. exact defined_ok. Qed.
Print Assumptions C67_defined_partial.
Example C67_defined_ex : allKnown [lvOut [(1, 1); (0, 0)]%Z; lvIn] /\ exploitNest (lvOut [(1, 1); (0, 0)]%Z) [lvIn] = Nest 2 [] [[-1; 0]]%Z.
Proof.
  split; [|reflexivity]. intros [|[|k]] l d r Hk Hd Hr Hne; cbn in Hk.
  - injection Hk as <-. destruct Hd as [<-|[]]. destruct Hr as [->| ->]; [cbn; lia|now destruct Hne].
  - injection Hk as <-. destruct Hd.
  - destruct k; discriminate.
Qed.
(** A depth of an ordered directive is not limited with a number of known distances *)
Theorem C67_depth_refuted : ~ C67_defined_claim (fun _ _ => True).
Proof.
  intros H. apply (H (lvOut [(1, 1)]%Z) [lvIn]); [|exact Logic.I|reflexivity].
  intros l d [<-|[<-|[]]] Hd; [|destruct Hd]. destruct Hd as [<-|[]]. left. discriminate.
Qed.
Print Assumptions C67_depth_refuted.

(** Full claim: any kind of clauses.  Private and reduction variables of inner loops are listed in clauses
    of a nest or they are induction variables. *)
Theorem C67_clauses_partial :
  C67_clauses_claim (fun lv l priv v => (In v (lvPriv l) /\ ~ In v priv) \/ exists r, In (r, v) (lvRed l) /\ ~ In (r, v) (lvRed lv)).
Proof. exact clauses_ok. Qed.
Print Assumptions C67_clauses_partial.
Definition lvOutP : level := Level true 0 [Dist [(1, 1); (0, 0)]%Z []] [1; 7] [] [] [(2, 8)] true true.
Definition lvInP : level := Level true 1 [] [7] [] [] [(2, 8)] true false.
Example C67_clauses_ex : exploitNest lvOutP [lvInP] = Nest 2 [7] [[-1; 0]]%Z.
Proof. reflexivity. Qed.
(** A variable which is lastprivate for an inner loop only is not listed *)
Definition lvInL : level := Level true 1 [] [] [5] [] [] true false.
Theorem C67_lastprivate_refuted : ~ C67_clauses_claim (fun lv l priv v => In v (lvLast l) /\ ~ In v (lvLast lv) /\ ~ In v priv).
Proof.
  intros H. destruct (H (lvOut [(1, 1); (0, 0)]%Z) [lvInL] 2 [] [[-1; 0]]%Z eq_refl 1 lvInL 5 eq_refl ltac:(lia)) as (j & l & Hj & Hl).
  - split; [now left|]. split; intros [].
  - destruct j as [|[|j]]; cbn in Hj; [injection Hj as <-; discriminate|injection Hj as <-; discriminate|destruct j; discriminate].
Qed.
Print Assumptions C67_lastprivate_refuted.

(** Loops are collapsed if all outer loops of a nest have dependencies and are perfectly nested, and
    analysis of inner loops succeeds *)
Lemma extend_nest lvs : forall k priv red o o' n priv', extend lvs k priv red o = Some (o', n, priv') ->
  k <= n /\ forall j l, nth_error lvs j = Some l -> k + j < n -> lvOk l = true /\ (S (k + j) < n -> lvPerfect l = true /\ lvDeps l <> []).
Proof.
  induction lvs as [|lv lvs IH]; intros k priv red o o' n priv' H; cbn [extend] in H.
  - injection H as <- <- <-. split; [lia|]. intros [] l E; discriminate E.
  - destruct (lvOk lv) eqn:OK; cbn [negb] in H.
    2:{ injection H as <- <- <-. split; [lia|]. intros j l _ L. lia. }
    destruct (_ || _); [injection H as <- <- <-; split; [lia|]; intros j l _ L; lia|].
    destruct (addOrUpdate lv k o) as [[[o1 final]|]|]; [| |discriminate H].
    2:{ injection H as <- <- <-. split; [lia|]. intros j l _ L. lia. }
    destruct (finalLevel lv final) eqn:F.
    + injection H as <- <- <-. split; [lia|]. intros [|j] l E L; [|lia]. injection E as <-. split; [exact OK|lia].
    + destruct (IH _ _ _ _ _ _ _ H) as [A B]. split; [lia|]. intros [|j] l E L.
      * injection E as <-. split; [exact OK|]. intros _. unfold finalLevel in F. destruct (lvDeps lv); [discriminate F|].
        destruct final; [discriminate F|]. destruct (lvPerfect lv); [|discriminate F]. split; [reflexivity|discriminate].
      * cbn [nth_error] in E. destruct (B j l E ltac:(lia)) as [C D]. split; [exact C|]. intros L'. apply D. lia.
Qed.
Theorem C67_nest : forall lv lvs n priv sinks, exploitNest lv lvs = Nest n priv sinks ->
  0 < n /\ forall j l, nth_error (lv :: lvs) j = Some l -> j < n ->
    (0 < j -> lvOk l = true) /\ (S j < n -> lvPerfect l = true /\ lvDeps l <> []).
Proof.
  intros lv lvs n priv sinks H. unfold exploitNest in H.
  destruct (addOrUpdate lv 0 ordered0) as [[[o final]|]|]; try discriminate H.
  destruct (finalLevel lv final) eqn:F.
  - destruct (buildSinks _ _) as [vs|]; [|discriminate H]. injection H as <- _ _. split; [lia|].
    intros [|j] l E L; [|lia]. split; lia.
  - destruct (extend lvs 1 (lvPriv lv) (lvRed lv) o) as [[[o1 m] p]|] eqn:X; [|discriminate H].
    destruct (buildSinks _ _) as [vs|]; [|discriminate H]. injection H as <- _ _. destruct (extend_nest _ _ _ _ _ _ _ _ X) as [A B].
    split; [lia|]. intros [|j] l E L.
    + injection E as <-. split; [lia|]. intros _. unfold finalLevel in F. destruct (lvDeps lv); [discriminate F|].
      destruct final; [discriminate F|]. destruct (lvPerfect lv); [|discriminate F]. split; [reflexivity|discriminate].
    + cbn [nth_error] in E. destruct (B j l E ltac:(lia)) as [C D]. split; [intros _; exact C|]. intros L'. apply D. lia.
Qed.
Print Assumptions C67_nest.
Example C67_nest_ex : exploitNest lvOutP [lvInP] = Nest 2 [7] [[-1; 0]]%Z /\
  exploitNest (Level true 0 [Dist [(1, 1); (0, 0)]%Z []] [1; 7] [] [] [(2, 8)] true false) [lvInP] = Nest 1 [1; 7] [[-1]]%Z.
Proof. split; reflexivity. Qed.

(** ** Results *)
(** Full claim: [C67_claim (fun _ _ _ => True)].  It holds if a step of a loop is 1 and different
    locations with dependencies belong to different variables (other conditions are the same as in C66). *)
Theorem C67_results_partial :
  C67_claim (fun l P step => step = 1%Z /\ distinctDeps l /\ autoLocals l P /\ deadHead l P /\ lastKnown l /\ noUnknown l).
Proof. exact ordered_results. Qed.
Print Assumptions C67_results_partial.

(** Full claim: [C67_progress_claim (fun _ => True)] *)
Theorem C67_progress_partial : C67_progress_claim (fun step => (0 < step)%Z).
Proof. exact progress_ok. Qed.
Print Assumptions C67_progress_partial.

(** *** Examples *)
Lemma truth_plain l P :
  (forall i e, i < pN P -> In e (pTrace P i) -> origOf e = false) ->
  (forall c, exists n, nth_error (lNodes l) (fst (pHome P c)) = Some n /\ In (snd (pHome P c)) (nMems n) /\ nCov n = true /\ cellOk P n c) ->
  (forall i n t v c, nth_error (lNodes l) i = Some n -> nCov n = true -> In t (nMems n) -> coincides (mSearch t) v -> (pVar P c = Some v <-> pHome P c = (i, t))) ->
  (forall i n t v c, nth_error (lNodes l) i = Some n -> nCov n = true -> In t (nMems n) -> varOfSearch (mSearch t) = Some v ->
    In v (lLocals l) -> pHome P c = (i, t) -> pVar P c = Some v) ->
  (forall n, In n (lNodes l) -> nMems n <> [] /\ forall t, In t (nMems n) -> (mFlow t <> None -> dFlow (mDesc t) = true) /\ (mAnti t <> None -> dAnti (mDesc t) = true)) ->
  (forall c v, pVar P c = Some v -> In v (lLocals l) -> pAuto P v = true -> privateCell (pOp P) (pBody P) (pMem P) (pN P) c /\ pLive P c = false) ->
  reductionOp (pOp P) (pIdent P) -> truth l P.
Proof.
  intros H1 H2 H3 H4 H5 H6 H7.
  assert (K : forall i n c, nth_error (lNodes l) i = Some n -> fst (pHome P c) = i -> cellOk P n c).
  { intros i n c Hn Hi. destruct (H2 c) as (m & M1 & _ & _ & M2). rewrite Hi in M1. congruence. }
  constructor; try assumption.
  - intros i c _ _. destruct (H2 c) as (n & A & B & C & _). now exists n.
  - intros i n c Hn _ _ Hi. apply (K i n c Hn Hi).
  - intros i n c Hn _ _ Hi. apply (K i n c Hn Hi).
  - intros i n c Hn _ _ Hi. apply (K i n c Hn Hi).
  - intros i n c Hn _ _ Hi. apply (K i n c Hn Hi).
  - intros i n c Hn _ _ Hi. apply (K i n c Hn Hi).
  - intros i n c k Hn _ _ Hi Hd. exact (proj2 (proj2 (proj2 (proj2 (proj2 (K i n c Hn Hi))))) Hd k).
  - intros i c Hi (e & E1 & _ & E2). rewrite (H1 i e Hi E1) in E2. discriminate.
  - intros h i c _ _ Hi (e & E1 & _ & E2). rewrite (H1 i e Hi E1) in E2. discriminate.
Qed.
(** execution with a given order of actions of threads *)
Definition waitsb (N : nat) (step : Z) (sinks : list (list Z)) (i j : nat) : bool :=
  (i <? N) && (j <? N) && existsb (fun v => match v with [d] => Z.eqb (step * (Z.of_nat j - Z.of_nat i)) d | _ => false end) sinks.
Lemma waitsb_ok N step sinks i j : waitsIter N step sinks i j -> j < N /\ waitsb N step sinks i j = true.
Proof.
  intros (A & B & v & Hv & Hr). cbn in A, B. split; [lia|]. unfold waitsb.
  rewrite (proj2 (Nat.ltb_lt i N)), (proj2 (Nat.ltb_lt j N)) by lia. cbn [andb]. apply existsb_exists. exists v. split; [exact Hv|].
  destruct v as [|d [|e v]]; cbn [reaches] in Hr; [destruct Hr| |destruct Hr as [_ []]]. now apply Z.eqb_eq.
Qed.
Section Sched.
Variable op : nat -> Z -> Z -> Z.
Variable body : nat -> prog.
Variable priv : nat -> bool.
Variable N : nat.
Variable step : Z.
Variable sinks : list (list Z).
Definition onext (fin : list nat) (sh : mem) (t : othread) : option (list nat * mem * othread) :=
  match oCur t with
  | None => match oIters t with
            | [] => None
            | i :: its => if forallb (fun j => negb (waitsb N step sinks i j) || isIn j fin) (seq 0 N) then Some (fin, sh, OThread its (Some (i, body i)) (oPriv t)) else None
            end
  | Some (i, Done) => Some (i :: fin, sh, OThread (oIters t) None (oPriv t))
  | Some (i, p) => match tstep op body priv sh (Thread [] p (oPriv t)) with
                   | Some (sh', Thread [] p' pv') => Some (fin, sh', OThread (oIters t) (Some (i, p')) pv')
                   | _ => None
                   end
  end.
Lemma onext_ok fin sh t fin1 sh1 t1 : onext fin sh t = Some (fin1, sh1, t1) -> ostep op body priv (waitsIter N step sinks) fin sh t fin1 sh1 t1.
Proof.
  destruct t as [its cur pv]. unfold onext. cbn [oCur oIters oPriv]. destruct cur as [[i p]|].
  - assert (A : forall q, q <> Done -> match tstep op body priv sh (Thread [] q pv) with
                   | Some (sh', Thread [] p' pv') => Some (fin, sh', OThread its (Some (i, p')) pv')
                   | _ => None end = Some (fin1, sh1, t1) -> ostep op body priv (waitsIter N step sinks) fin sh (OThread its (Some (i, q)) pv) fin1 sh1 t1).
    { intros q _ E. destruct (tstep op body priv sh (Thread [] q pv)) as [[sh' [[|x xs] p' pv']]|] eqn:Et; try discriminate.
      injection E as <- <- <-. now apply OAct. }
    destruct p; [|now apply A|now apply A|now apply A]. intros E. injection E as <- <- <-. apply OEnd.
  - destruct its as [|i its]; [discriminate|]. destruct (forallb _ _) eqn:F; [|discriminate]. intros E. injection E as <- <- <-. apply OStart.
    intros j Hj. apply waitsb_ok in Hj as [J1 J2]. rewrite forallb_forall in F. specialize (F j ltac:(apply in_seq; lia)). rewrite J2 in F.
    cbn [negb orb] in F. unfold isIn in F. apply existsb_exists in F as (k & K1 & K2). apply Nat.eqb_eq in K2. now subst.
Qed.
Fixpoint oput (j : nat) (t : othread) (ts : list othread) : list othread :=
  match ts, j with [], _ => [] | _ :: ts, 0 => t :: ts | x :: ts, S j => x :: oput j t ts end.
Fixpoint osched (js : list nat) (fin : list nat) (sh : mem) (ts : list othread) : list nat * mem * list othread :=
  match js with
  | [] => (fin, sh, ts)
  | j :: js => match nth_error ts j with
               | Some t => match onext fin sh t with Some (fin1, sh1, t1) => osched js fin1 sh1 (oput j t1 ts) | None => (fin, sh, ts) end
               | None => (fin, sh, ts)
               end
  end.
Lemma osched_steps js : forall fin sh ts,
  let r := osched js fin sh ts in osteps op body priv (waitsIter N step sinks) fin sh ts (fst (fst r)) (snd (fst r)) (snd r).
Proof.
  induction js as [|j js IH]; intros fin sh ts; cbn [osched]; [constructor|].
  destruct (nth_error ts j) as [t|] eqn:E; [|constructor]. destruct (onext fin sh t) as [[[fin1 sh1] t1]|] eqn:Et; [|constructor].
  apply nth_error_split in E as (pre & post & -> & <-).
  assert (X : oput (length pre) t1 (pre ++ t :: post) = pre ++ t1 :: post) by (clear; induction pre; cbn; congruence).
  rewrite X. econstructor; [exact (onext_ok _ _ _ _ _ _ Et)|apply IH].
Qed.
End Sched.

(** for (int i = 0; i < 2; ++i) { a[i + 1] = a[i] + 1; } with [i] and [a] being variables 0 and 1 *)
Definition dD : desc := Desc false false false false false false false true false false false false false.
Definition mD (v n : nat) : memT := MemT dD (SDerived v (Some (n, Strong))) None (Some true) None false.
Definition ndD (v n : nat) : node := Node dD [mD v n] true.
Definition orNodes : list node := [nd dI (SLocal 0) None; ndD 1 0].
Definition orHome (c : nat) : nat * memT := match c with 0 => (0, mt dI (SLocal 0) None) | _ => (1, mD 1 0) end.
Definition orBody (i : nat) : prog := Wr false 0 (Z.of_nat i) (Rd false (1 + i) (fun x => Wr false (2 + i) (x + 1)%Z Done)).
Definition orLoop : loopInfo := LoopInfo true orNodes [(0, 1); (1, 1)] [0] (Some 0) (fun _ _ => true).
Definition orProg : program := Program addOp (fun _ => 0%Z) 2 orBody (fun _ => 7%Z) (fun c => 0 <? c) stVar orHome 2 (fun _ => true).
Definition orDist (t : memT) : distInfo := Dist [(1, 1)]%Z [].
Definition orCl : clauses := Clauses [] [] [] [] 0.
Ltac okDep := unfold cellOk; cbn [nDesc nd ndD d0 dI dP dR dL dF dS dD dReadonly dShared dInduction dPrivate dSecond dFirst dReduction orb]; repeat split; try discriminate; try (intros _; wbr).
Lemma or_truth : truth orLoop orProg.
Proof.
  apply truth_plain.
  - orig.
  - intros c. cells c; (eexists; split; [reflexivity|]; split; [left; reflexivity|]; split; [reflexivity|]); okDep.
  - intros i n t v c Hn _ Ht Hw. nodes i Hn; destruct Ht as [<-|[]]; destruct Hw as [Hw|Hw]; try discriminate Hw; injection Hw as <-;
      cells c; cbn; split; intros E; try discriminate E; reflexivity.
  - intros i n t v c Hn _ Ht Hw [<-|[]] Hh.
    nodes i Hn; destruct Ht as [<-|[]]; try discriminate Hw; cells c; cbn in Hh; try discriminate Hh; reflexivity.
  - intros n [<-|[<-|[]]]; (split; [discriminate|]); intros t [<-|[]]; split; cbn; intros X; try reflexivity; now destruct X.
  - intros c v Hv [<-|[]] _. cells c; try discriminate Hv. split; [wbr|reflexivity].
  - exact addOp_ok.
Qed.
Ltac two a b Hab Hb := destruct a as [|a]; [|cbn in Hb; lia]; destruct b as [|[|b]]; [lia| |cbn in Hb; lia].
Ltac ev E1 E2 := repeat (destruct E1 as [<-|E1]; [cbn in E2; try discriminate E2|]); try destruct E1.
Ltac clash Hw Hr := let e := fresh "e" in let E1 := fresh "E" in let E2 := fresh "E" in let E3 := fresh "E" in
  let f := fresh "f" in let F1 := fresh "F" in let F2 := fresh "F" in let F3 := fresh "F" in
  destruct Hw as (e & E1 & E2 & E3), Hr as (f & F1 & F2 & F3); cbn in E1, F1; ev E1 E2; ev F1 F2; subst; cbn in *; try discriminate; try lia; try contradiction.
Lemma or_dist : distTruth orLoop orProg orDist.
Proof.
  constructor; intros i n c a b Hn Hd Hin Hi Hab Hb Hw Hr; two a b Hab Hb; nodes i Hn; try discriminate Hd.
  - exists 1%Z, 1%Z, []. split; [reflexivity|]. lia.
  - exfalso. clash Hw Hr.
  - clash Hw Hr.
Qed.
Definition ot (its : list nat) : othread := OThread its None (fun _ => 7%Z).
Definition orConds (l : loopInfo) (P : program) : Prop := autoLocals l P /\ deadHead l P /\ lastKnown l /\ noUnknown l.
Lemma or_conds : orConds orLoop orProg.
Proof.
  split; [intros v _; reflexivity|]. split; [|split].
  - intros h c Hh Hv. injection Hh as <-. cells c; try discriminate Hv. reflexivity.
  - intros n [<-|[<-|[]]] _ E; discriminate E.
  - intros n t [<-|[<-|[]]] _ E [<-|[]]; discriminate.
Qed.
Lemma or_distinct : distinctDeps orLoop.
Proof.
  intros i j n m t u v Hn Hm Dn Dm Ht Hu Hv Hw. nodes i Hn; try discriminate Dn. nodes j Hm; try discriminate Dm. reflexivity.
Qed.
Lemma or_starts parts : Forall2 (ostarts (pIdent orProg) (pMem orProg) (varIn orProg (cFirst orCl)) (redOf orProg orCl)) parts (map ot parts).
Proof.
  induction parts as [|p parts IH]; constructor; [|exact IH]. split; [reflexivity|]. repeat split; intros c k Hr; cells c; discriminate Hr.
Qed.
(** Hypotheses of the claims hold: the iteration 1 waits for the iteration 0 *)
Example C67_results_ex :
  exploitOrdered orLoop orDist true false [] = Some (orCl, Nest 1 [] [[-1]]%Z) /\ truth orLoop orProg /\ distTruth orLoop orProg orDist /\
  distinctDeps orLoop /\ orConds orLoop orProg /\ distributed 2 [[1]; [0]] /\
  onext addOp orBody (privOf orProg orLoop orCl) 2 1 [[-1]]%Z [] (pMem orProg) (ot [1]) = None /\
  exists fin sh ts', osteps addOp orBody (privOf orProg orLoop orCl) (waitsIter 2 1 [[-1]]%Z) [] (pMem orProg) [ot [1]; ot [0]] fin sh ts' /\ Forall ofinished ts'
    /\ map sh [1; 2; 3] = [7; 8; 9]%Z /\ map (seqFinal orProg orCl) [1; 2; 3] = [7; 8; 9]%Z.
Proof.
  split; [reflexivity|]. split; [exact or_truth|]. split; [exact or_dist|]. split; [exact or_distinct|]. split; [exact or_conds|]. split; [exact parts2|].
  split; [reflexivity|].
  eexists; eexists; eexists. split; [exact (osched_steps _ _ _ _ _ _ [1; 1; 1; 1; 1; 0; 0; 0; 0; 0] [] _ _)|]. split; [repeat constructor|]. split; reflexivity.
Qed.
Lemma orefute (cond : loopInfo -> program -> Z -> Prop) l P dist step sinks cl js c :
  exploitOrdered l dist true false [] = Some (cl, Nest 1 (cPriv cl) sinks) -> truth l P -> distTruth l P dist -> cond l P step -> pN P = 2 ->
  Forall2 (ostarts (pIdent P) (pMem P) (varIn P (cFirst cl)) (redOf P cl)) [[1]; [0]] (map ot [[1]; [0]]) ->
  let r := osched (pOp P) (pBody P) (privOf P l cl) 2 step sinks js [] (pMem P) (map ot [[1]; [0]]) in
  Forall ofinished (snd r) -> pLive P c = true ->
  parFinal (pOp P) (varIn P (cLast cl)) (redOf P cl) 2 [[1]; [0]] (snd (fst r)) (map plain (snd r)) c <> seqFinal P cl c -> ~ C67_claim cond.
Proof.
  intros H1 H2 H2' H3 H4 H5 r H6 H7 H8 H. apply H8. rewrite <- H4.
  apply (H l P dist step true false [] cl (cPriv cl) sinks [[1]; [0]] (map ot [[1]; [0]]) (fst (fst r)) (snd (fst r)) (snd r)); try assumption; try reflexivity.
  - rewrite H4. apply parts2.
  - rewrite H4. apply osched_steps.
Qed.
(** A step of a loop is ignored: for (int i = 0; i < 4; i += 2) { a[i + 2] = a[i] + 1; } is parallelized
    with depend(sink: i - 1), there is no such iteration *)
Theorem C67_step_refuted : ~ C67_claim (fun l P step => (0 < step)%Z /\ distinctDeps l /\ orConds l P).
Proof.
  apply (orefute _ orLoop orProg orDist 2%Z [[-1]]%Z orCl [0; 0; 0; 0; 0; 1; 1; 1; 1; 1] 3); try reflexivity.
  - exact or_truth.
  - exact or_dist.
  - split; [lia|]. split; [exact or_distinct|exact or_conds].
  - exact (or_starts _).
  - repeat constructor.
  - discriminate.
Qed.
Print Assumptions C67_step_refuted.
(** for (int i = 1; i >= 0; --i): the first iteration waits for the second one *)
Theorem C67_deadlock_refuted : ~ C67_progress_claim (fun _ => True).
Proof.
  intros H. destruct (H orLoop orProg orDist (-1)%Z true false [] orCl [] [[-1]]%Z [[0; 1]] [ot [0; 1]] [] (pMem orProg) [ot [0; 1]] eq_refl) as [K|K].
  - intros n t a b rs _ _ _ [E|E]; [injection E as <- <- _; lia|discriminate].
  - exact Logic.I.
  - split; [apply Permutation_refl|]. repeat constructor.
  - exact (or_starts [[0; 1]]).
  - constructor.
  - inversion K as [|x xs K1 K2]; subst. destruct K1 as [K1 _]. discriminate.
  - destruct K as (pre & t & post & fin1 & sh1 & t1 & E & K). destruct pre as [|x [|y pre]]; [|discriminate|discriminate]. injection E as <- _.
    inversion K as [fin sh i its pv Hw E1 E2 E3 E4| |]; subst. destruct (Hw 1).
    split; [cbn; lia|]. split; [cbn; lia|]. exists [-1]%Z. split; [now left|]. cbn. lia.
Qed.
Print Assumptions C67_deadlock_refuted.

(** Distances of the first location of a variable are kept only: int **A; for (int i = 0; i < 2; ++i) {
    A[i + 2] = A[i]; A[0][i + 1] = A[0][i] + 1; } *)
Definition dRO : desc := Desc false false true false false false false false false false false false false.
Definition ptNodes : list node := [nd dI (SLocal 0) None; nd dRO (SLocal 1) None; ndD 1 1; ndD 1 2].
Definition ptHome (c : nat) : nat * memT :=
  match c with 0 => (0, mt dI (SLocal 0) None) | 1 => (1, mt dRO (SLocal 1) None) | 2 | 3 | 4 | 5 => (2, mD 1 1) | _ => (3, mD 1 2) end.
Definition ptVar (c : nat) : option nat := match c with 0 => Some 0 | 1 => Some 1 | _ => None end.
Definition ptBody (i : nat) : prog :=
  Wr false 0 (Z.of_nat i) (Rd false 1 (fun _ => Rd false (2 + i) (fun x => Wr false (4 + i) x
    (Rd false (6 + i) (fun y => Wr false (7 + i) (y + 1)%Z Done))))).
Definition ptLoop : loopInfo := LoopInfo true ptNodes [(0, 1); (1, 3)] [0] (Some 0) (fun _ _ => true).
Definition ptProg : program := Program addOp (fun _ => 0%Z) 2 ptBody (fun _ => 7%Z) (fun c => 0 <? c) ptVar ptHome 2 (fun _ => true).
Definition ptDist (t : memT) : distInfo := match mSearch t with SDerived _ (Some (1, _)) => Dist [(2, 2)]%Z [] | _ => Dist [(1, 1)]%Z [] end.
Ltac pcells c := destruct c as [|[|[|[|[|[|c]]]]]].
Lemma pt_truth : truth ptLoop ptProg.
Proof.
  apply truth_plain.
  - orig.
  - intros c. pcells c; (eexists; split; [reflexivity|]; split; [left; reflexivity|]; split; [reflexivity|]); unfold dRO; okDep.
    all: intros _ i Hi (e & E1 & E2 & E3); iter i; cbn in E1; ev E1 E2; cbn in E3; discriminate.
  - intros i n t v c Hn _ Ht Hw. nodes i Hn; destruct Ht as [<-|[]]; destruct Hw as [Hw|Hw]; try discriminate Hw; injection Hw as <-;
      pcells c; cbn; split; intros E; try discriminate E; reflexivity.
  - intros i n t v c Hn _ Ht Hw [<-|[]] Hh.
    nodes i Hn; destruct Ht as [<-|[]]; try discriminate Hw; pcells c; cbn in Hh; try discriminate Hh; reflexivity.
  - intros n [<-|[<-|[<-|[<-|[]]]]]; (split; [discriminate|]); intros t [<-|[]]; split; cbn; intros X; try reflexivity; now destruct X.
  - intros c v Hv [<-|[]] _. pcells c; try discriminate Hv. split; [wbr|reflexivity].
  - exact addOp_ok.
Qed.
Lemma pt_dist : distTruth ptLoop ptProg ptDist.
Proof.
  constructor; intros i n c a b Hn Hd Hin Hi Hab Hb Hw Hr; two a b Hab Hb; nodes i Hn; try discriminate Hd; clash Hw Hr.
  exists 1%Z, 1%Z, []. split; [reflexivity|]. lia.
Qed.
Theorem C67_variable_refuted : ~ C67_claim (fun l P step => step = 1%Z /\ orConds l P).
Proof.
  apply (orefute _ ptLoop ptProg ptDist 1%Z [[-2]]%Z orCl [0; 0; 0; 0; 0; 0; 0; 0; 1; 1; 1; 1; 1; 1; 1; 1] 8); try reflexivity.
  - exact pt_truth.
  - exact pt_dist.
  - split; [reflexivity|]. split; [intros v _; reflexivity|]. split; [|split].
    + intros h c Hh Hv. injection Hh as <-. pcells c; try discriminate Hv. reflexivity.
    + intros n [<-|[<-|[<-|[<-|[]]]]] _ E; discriminate E.
    + intros n t [<-|[<-|[<-|[<-|[]]]]] _ E [<-|[]]; discriminate.
  - repeat constructor; intros c k Hr; unfold redOf in Hr; destruct (pVar ptProg c); discriminate Hr.
  - repeat constructor.
  - discriminate.
Qed.
Print Assumptions C67_variable_refuted.
