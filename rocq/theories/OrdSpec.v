(** Specification of ordered parallel loops *)
From Coq Require Import List Bool Arith ZArith Permutation Sorted.
From Verif Require Import ParLoopModel ParLoopSpec OrdModel.
Import ListNotations.

(** ** Execution of an ordered loop: an iteration starts if all iterations it waits for are finished *)
Record othread := OThread { oIters : list nat; oCur : option (nat * prog); oPriv : mem }.
Section Sem.
Variable op : nat -> Z -> Z -> Z.
Variable body : nat -> prog.
Variable priv : nat -> bool.
(** [waits i j]: the iteration [i] has depend(sink) of the iteration [j] *)
Variable waits : nat -> nat -> Prop.
Inductive ostep : list nat -> mem -> othread -> list nat -> mem -> othread -> Prop :=
| OStart fin sh i its pv : (forall j, waits i j -> In j fin) ->
    ostep fin sh (OThread (i :: its) None pv) fin sh (OThread its (Some (i, body i)) pv)
| OAct fin sh its i p pv sh' p' pv' : tstep op body priv sh (Thread [] p pv) = Some (sh', Thread [] p' pv') ->
    ostep fin sh (OThread its (Some (i, p)) pv) fin sh' (OThread its (Some (i, p')) pv')
| OEnd fin sh its i pv : ostep fin sh (OThread its (Some (i, Done)) pv) (i :: fin) sh (OThread its None pv).
Inductive osteps : list nat -> mem -> list othread -> list nat -> mem -> list othread -> Prop :=
| ORefl fin sh ts : osteps fin sh ts fin sh ts
| OStep fin sh pre t post fin1 sh1 t1 fin2 sh2 ts2 :
    ostep fin sh t fin1 sh1 t1 -> osteps fin1 sh1 (pre ++ t1 :: post) fin2 sh2 ts2 -> osteps fin sh (pre ++ t :: post) fin2 sh2 ts2.
End Sem.
Definition ofinished (t : othread) : Prop := oIters t = [] /\ oCur t = None.
Definition plain (t : othread) : thread := Thread (oIters t) Done (oPriv t).
Definition ostarts (ident : nat -> Z) (m0 : mem) (first : nat -> bool) (red : nat -> option nat) (part : list nat) (t : othread) : Prop :=
  oCur t = None /\ starts ident m0 first red part (plain t).

(** ** Iterations of a nest are vectors of numbers; [steps] are steps of induction variables.  An offset
    in depend(sink: ...) is added to values of induction variables. *)
Fixpoint reaches (steps t u v : list Z) : Prop :=
  match steps, t, u, v with
  | s :: steps, a :: t, b :: u, d :: v => (s * (b - a) = d)%Z /\ reaches steps t u v
  | [], [], [], [] => True
  | _, _, _, _ => False
  end.
Fixpoint inSpace (counts t : list Z) : Prop :=
  match counts, t with
  | n :: counts, a :: t => (0 <= a < n)%Z /\ inSpace counts t
  | [], [] => True
  | _, _ => False
  end.
(** [t] waits for [u] *)
Definition waitsFor (counts steps : list Z) (sinks : list (list Z)) (t u : list Z) : Prop :=
  inSpace counts t /\ inSpace counts u /\ exists v, In v sinks /\ reaches steps t u v.
(** chains of waits *)
Inductive waitsChain (counts steps : list Z) (sinks : list (list Z)) : list Z -> list Z -> Prop :=
| WOne t u : waitsFor counts steps sinks t u -> waitsChain counts steps sinks t u
| WMore t u w : waitsFor counts steps sinks t u -> waitsChain counts steps sinks u w -> waitsChain counts steps sinks t w.
(** [t] depends on [u] with distances in known ranges, iterations of enclosing loops are the same *)
Fixpoint within (r : list range) (t u : list Z) : Prop :=
  match r, t, u with
  | (a, b) :: r, x :: t, y :: u => (a <= x - y <= b)%Z /\ within r t u
  | _, _, _ => True
  end.
Fixpoint carried (k : nat) (r : list range) (t u : list Z) : Prop :=
  match k with
  | 0 => within r t u
  | S k => match t, u with x :: t, y :: u => x = y /\ carried k r t u | _, _ => False end
  end.
(** Any dependence of a loop in an ordered nest is respected *)
Definition C67_cover_claim (cond : level -> list level -> nat -> list Z -> Prop) : Prop :=
  forall lv lvs n priv sinks counts steps,
    exploitNest lv lvs = Nest n priv sinks -> length steps = n -> cond lv lvs n steps ->
    forall k l d r t u, nth_error (lv :: lvs) k = Some l -> k < n -> In d (lvDeps l) -> r = dvFlow d \/ r = dvAnti d -> r <> [] ->
    length t = n -> length u = n -> inSpace counts t -> inSpace counts u -> carried k r t u ->
    waitsChain counts steps sinks t u.
Definition unitSteps (steps : list Z) : Prop := Forall (fun s => s = 1%Z) steps.
(** Ranges of inner loops are symmetric *)
Definition symmetric (r : list range) : Prop := Forall (fun x => fst x = (- snd x)%Z) (tl r).
Definition rangesOf (lvs : list level) (r : list range) : Prop :=
  exists l d, In l lvs /\ In d (lvDeps l) /\ (r = dvFlow d \/ r = dvAnti d) /\ r <> [].

(** A directive is built for any nest: there is no access out of range *)
Definition C67_defined_claim (cond : level -> list level -> Prop) : Prop :=
  forall lv lvs, (forall l d, In l (lv :: lvs) -> In d (lvDeps l) -> dvFlow d <> [] \/ dvAnti d <> []) ->
    cond lv lvs -> exploitNest lv lvs <> Crash.
(** Distances are known for all inner loops *)
Definition allKnown (lvs : list level) : Prop :=
  forall k l d r, nth_error lvs k = Some l -> In d (lvDeps l) -> r = dvFlow d \/ r = dvAnti d -> r <> [] -> length lvs <= k + length r.

(** Variables of clauses of inner loops are in clauses of a nest *)
Definition C67_clauses_claim (kind : level -> level -> list nat -> nat -> Prop) : Prop :=
  forall lv lvs n priv sinks, exploitNest lv lvs = Nest n priv sinks ->
  forall k l v, nth_error (lv :: lvs) k = Some l -> k < n -> kind lv l priv v ->
    exists j l', nth_error (lv :: lvs) j = Some l' /\ lvInd l' = v.

(** ** Results of a loop with regular dependencies *)
Definition readAt (P : program) (i c : nat) : Prop :=
  exists e, In e (pTrace P i) /\ cellOf e = c /\ match e with EWr _ _ => False | _ => True end.
Definition inRange (r : list range) (d : Z) : Prop := exists a b rs, r = (a, b) :: rs /\ (a <= d <= b)%Z.
(** Distances describe dependencies between iterations *)
Record distTruth (l : loopInfo) (P : program) (dist : memT -> distInfo) : Prop := {
  qFlow : forall i n c a b, nth_error (lNodes l) i = Some n -> depNode n = true -> In (snd (pHome P c)) (nMems n) -> fst (pHome P c) = i ->
    a < b -> b < pN P -> written (pOp P) (pBody P) (pMem P) a c -> readAt P b c ->
    inRange (dvFlow (dist (snd (pHome P c)))) (Z.of_nat b - Z.of_nat a);
  qAnti : forall i n c a b, nth_error (lNodes l) i = Some n -> depNode n = true -> In (snd (pHome P c)) (nMems n) -> fst (pHome P c) = i ->
    a < b -> b < pN P -> readAt P a c -> written (pOp P) (pBody P) (pMem P) b c ->
    inRange (dvAnti (dist (snd (pHome P c)))) (Z.of_nat b - Z.of_nat a);
  qOutput : forall i n c a b, nth_error (lNodes l) i = Some n -> depNode n = true -> In (snd (pHome P c)) (nMems n) -> fst (pHome P c) = i ->
    a < b -> b < pN P -> written (pOp P) (pBody P) (pMem P) a c -> ~ written (pOp P) (pBody P) (pMem P) b c
}.
Definition waitsIter (N : nat) (step : Z) (sinks : list (list Z)) (i j : nat) : Prop :=
  waitsFor [Z.of_nat N] [step] sinks [Z.of_nat i] [Z.of_nat j].
(** Any ordered execution of a single loop leaves the same values as the sequential one *)
Definition C67_claim (cond : loopInfo -> program -> Z -> Prop) : Prop :=
  forall l P dist step entry perfect lvs cl priv sinks parts ts fin sh ts',
    exploitOrdered l dist entry perfect lvs = Some (cl, Nest 1 priv sinks) -> truth l P -> distTruth l P dist -> cond l P step ->
    priv = cPriv cl ->
    distributed (pN P) parts ->
    Forall2 (ostarts (pIdent P) (pMem P) (varIn P (cFirst cl)) (redOf P cl)) parts ts ->
    osteps (pOp P) (pBody P) (privOf P l cl) (waitsIter (pN P) step sinks) [] (pMem P) ts fin sh ts' -> Forall ofinished ts' ->
    forall c, pLive P c = true ->
    parFinal (pOp P) (varIn P (cLast cl)) (redOf P cl) (pN P) parts sh (map plain ts') c = seqFinal P cl c.
(** An unfinished execution may be continued *)
Definition C67_progress_claim (cond : Z -> Prop) : Prop :=
  forall l (P : program) dist step entry perfect lvs cl priv sinks parts ts fin sh ts',
    exploitOrdered l dist entry perfect lvs = Some (cl, Nest 1 priv sinks) ->
    (forall n t a b rs, In n (lNodes l) -> depNode n = true -> In t (nMems n) ->
       dvFlow (dist t) = (a, b) :: rs \/ dvAnti (dist t) = (a, b) :: rs -> (0 < a <= b)%Z) ->
    cond step ->
    distributed (pN P) parts ->
    Forall2 (ostarts (pIdent P) (pMem P) (varIn P (cFirst cl)) (redOf P cl)) parts ts ->
    osteps (pOp P) (pBody P) (privOf P l cl) (waitsIter (pN P) step sinks) [] (pMem P) ts fin sh ts' ->
    Forall ofinished ts' \/
    exists pre t post fin1 sh1 t1, ts' = pre ++ t :: post /\ ostep (pOp P) (pBody P) (privOf P l cl) (waitsIter (pN P) step sinks) fin sh t fin1 sh1 t1.
(** Different nodes with regular dependencies are related with different variables *)
Definition distinctDeps (l : loopInfo) : Prop :=
  forall i j n m t u v, nth_error (lNodes l) i = Some n -> nth_error (lNodes l) j = Some m -> depNode n = true -> depNode m = true ->
    In t (nMems n) -> In u (nMems m) -> varOfSearch (mSearch t) = Some v -> varOfSearch (mSearch u) = Some v -> i = j.
