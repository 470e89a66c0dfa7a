(** Specification of a parallel loop: what the analysis results mean and how iterations are executed
    in parallel. *)
From Coq Require Import List Bool Arith ZArith Permutation Sorted.
From Verif Require Import ParLoopModel.
Import ListNotations.

(** Memory consists of cells *)
Definition mem := nat -> Z.
Definition upd (m : mem) (c : nat) (v : Z) : mem := fun x => if Nat.eqb x c then v else m x.

(** An iteration reads, writes and updates cells; each next action depends on values read before.
    An action with [true] accesses the original storage of a variable even if the variable is
    private: it is executed by a called function which refers to a global variable. *)
Inductive prog :=
| Done
| Rd (o : bool) (c : nat) (k : Z -> prog)
| Wr (o : bool) (c : nat) (v : Z) (k : prog)
| Up (o : bool) (c : nat) (r : nat) (v : Z) (k : prog).     (* c = c <r> v *)
Inductive event := ERd (o : bool) (c : nat) | EWr (o : bool) (c : nat) | EUp (o : bool) (c : nat) (r : nat) (v : Z).
Definition cellOf (e : event) : nat := match e with ERd _ c | EWr _ c | EUp _ c _ _ => c end.
Definition origOf (e : event) : bool := match e with ERd o _ | EWr o _ | EUp o _ _ _ => o end.
Definition isWrite (e : event) : bool := match e with ERd _ _ => false | _ => true end.

Section Sem.
(** Operations of reductions and their neutral elements *)
Variable op : nat -> Z -> Z -> Z.
Variable ident : nat -> Z.

(** ** Sequential execution *)
Fixpoint run (p : prog) (m : mem) : mem * list event :=
  match p with
  | Done => (m, [])
  | Rd o c k => let r := run (k (m c)) m in (fst r, ERd o c :: snd r)
  | Wr o c v k => let r := run k (upd m c v) in (fst r, EWr o c :: snd r)
  | Up o c r v k => let q := run k (upd m c (op r (m c) v)) in (fst q, EUp o c r v :: snd q)
  end.
Variable body : nat -> prog.
Variable m0 : mem.
Fixpoint seqMem (i : nat) : mem := match i with 0 => m0 | S i => fst (run (body i) (seqMem i)) end.
Definition trace (i : nat) : list event := snd (run (body i) (seqMem i)).

(** ** Parallel execution: each thread has private copies of some cells *)
Record thread := Thread { tIters : list nat; tProg : prog; tPriv : mem }.
Variable priv : nat -> bool.
Definition tstep (sh : mem) (t : thread) : option (mem * thread) :=
  match tProg t with
  | Done => match tIters t with [] => None | i :: is => Some (sh, Thread is (body i) (tPriv t)) end
  | Rd o c k => Some (sh, Thread (tIters t) (k (if priv c && negb o then tPriv t c else sh c)) (tPriv t))
  | Wr o c v k => if priv c && negb o then Some (sh, Thread (tIters t) k (upd (tPriv t) c v))
                  else Some (upd sh c v, Thread (tIters t) k (tPriv t))
  | Up o c r v k => if priv c && negb o then Some (sh, Thread (tIters t) k (upd (tPriv t) c (op r (tPriv t c) v)))
                    else Some (upd sh c (op r (sh c) v), Thread (tIters t) k (tPriv t))
  end.
(** Any interleaving of actions of threads *)
Inductive psteps : mem -> list thread -> mem -> list thread -> Prop :=
| PRefl sh ts : psteps sh ts sh ts
| PStep sh pre t post sh1 t1 sh2 ts2 :
    tstep sh t = Some (sh1, t1) -> psteps sh1 (pre ++ t1 :: post) sh2 ts2 -> psteps sh (pre ++ t :: post) sh2 ts2.
Definition finished (t : thread) : Prop := tIters t = [] /\ tProg t = Done.
(** Clauses for cells: firstprivate, lastprivate, reduction *)
Variable first : nat -> bool.
Variable last : nat -> bool.
Variable red : nat -> option nat.
Definition starts (part : list nat) (t : thread) : Prop :=
  tIters t = part /\ tProg t = Done
  /\ (forall c, first c = true -> red c = None -> tPriv t c = m0 c)
  /\ (forall c k, red c = Some k -> tPriv t c = ident k).
(** Iterations are distributed between threads, a thread executes its iterations in the order *)
Definition distributed (N : nat) (parts : list (list nat)) : Prop :=
  Permutation (concat parts) (seq 0 N) /\ Forall (fun p => StronglySorted lt p) parts.
(** Memory after the parallel loop *)
Definition parFinal (N : nat) (parts : list (list nat)) (sh : mem) (ts : list thread) : mem := fun c =>
  match red c with
  | Some k => fold_left (fun a t => op k a (tPriv t c)) ts (sh c)
  | None => if last c
            then match find (fun x => isIn (pred N) (fst x)) (combine parts ts) with
                 | Some x => if Nat.eqb N 0 then sh c else tPriv (snd x) c
                 | None => sh c
                 end
            else sh c
  end.

(** ** Meaning of traits *)
Section Traits.
Variable N : nat.
Definition accessed (i c : nat) : Prop := exists e, In e (trace i) /\ cellOf e = c.
Definition written (i c : nat) : Prop := exists e, In e (trace i) /\ cellOf e = c /\ isWrite e = true.
(** no iteration writes the cell *)
Definition readonlyCell (c : nat) : Prop := forall i, i < N -> ~ written i c.
(** there is no dependence between different iterations *)
Definition sharedCell (c : nat) : Prop := forall i j, i < N -> j < N -> i <> j -> written i c -> ~ accessed j c.
(** an iteration writes the cell before it reads the cell *)
Definition privateCell (c : nat) : Prop := forall i, i < N -> forall pre e post, trace i = pre ++ e :: post -> cellOf e = c ->
  (exists o, e = EWr o c) \/ exists o, In (EWr o c) pre.
(** the last iteration writes the cell *)
Definition lastCell (c : nat) : Prop := forall i, N = S i -> exists o, In (EWr o c) (trace i).
(** the cell is updated with the operation only *)
Definition reductionCell (k : nat) (c : nat) : Prop := forall i, i < N -> forall e, In e (trace i) -> cellOf e = c -> exists o v, e = EUp o c k v.
End Traits.
End Sem.

(** A commutative operation with a neutral element *)
Definition reductionOp (op : nat -> Z -> Z -> Z) (ident : nat -> Z) : Prop :=
  forall k, (forall a b, op k a b = op k b a) /\ (forall a b c, op k a (op k b c) = op k (op k a b) c) /\ (forall a, op k a (ident k) = a).

(** A loop: the number of iterations, a body, an initial memory, cells whose values are used after
    the loop, a variable which owns a cell, an alias node and a memory location which describe it,
    a value of the loop variable after the loop, automatic variables *)
Record program := Program {
  pOp : nat -> Z -> Z -> Z; pIdent : nat -> Z;
  pN : nat; pBody : nat -> prog; pMem : mem; pLive : nat -> bool;
  pVar : nat -> option nat; pHome : nat -> nat * memT; pEnd : Z; pAuto : nat -> bool
}.
Definition pTrace (P : program) := trace (pOp P) (pBody P) (pMem P).
Definition coincides (q : search) (v : nat) : Prop := q = SLocal v \/ q = SGlobal v.

(** The results of analyses describe the loop *)
Record truth (l : loopInfo) (P : program) : Prop := {
  (* each accessed cell is described *)
  tCover : forall i c, i < pN P -> accessed (pOp P) (pBody P) (pMem P) i c ->
    exists n, nth_error (lNodes l) (fst (pHome P c)) = Some n /\ In (snd (pHome P c)) (nMems n) /\ nCov n = true;
  (* a memory location which coincides with a variable describes all cells of the variable and nothing else *)
  tWhole : forall i n t v c, nth_error (lNodes l) i = Some n -> nCov n = true -> In t (nMems n) -> coincides (mSearch t) v ->
    (pVar P c = Some v <-> pHome P c = (i, t));
  (* the same for a location which is found as a variable of the loop *)
  tLocals : forall i n t v c, nth_error (lNodes l) i = Some n -> nCov n = true -> In t (nMems n) -> varOfSearch (mSearch t) = Some v ->
    In v (lLocals l) -> pHome P c = (i, t) -> pVar P c = Some v;
  (* traits of a covered node are traits of its cells *)
  tReadonly : forall i n c, nth_error (lNodes l) i = Some n -> nCov n = true -> In (snd (pHome P c)) (nMems n) -> fst (pHome P c) = i ->
    dReadonly (nDesc n) = true -> readonlyCell (pOp P) (pBody P) (pMem P) (pN P) c;
  tShared : forall i n c, nth_error (lNodes l) i = Some n -> nCov n = true -> In (snd (pHome P c)) (nMems n) -> fst (pHome P c) = i ->
    dShared (nDesc n) = true -> sharedCell (pOp P) (pBody P) (pMem P) (pN P) c;
  tPrivate : forall i n c, nth_error (lNodes l) i = Some n -> nCov n = true -> In (snd (pHome P c)) (nMems n) -> fst (pHome P c) = i ->
    dInduction (nDesc n) || dPrivate (nDesc n) || dSecond (nDesc n) || dFirst (nDesc n) = true ->
    privateCell (pOp P) (pBody P) (pMem P) (pN P) c;
  tDead : forall i n c, nth_error (lNodes l) i = Some n -> nCov n = true -> In (snd (pHome P c)) (nMems n) -> fst (pHome P c) = i ->
    dPrivate (nDesc n) = true -> pLive P c = false;
  tLast : forall i n c, nth_error (lNodes l) i = Some n -> nCov n = true -> In (snd (pHome P c)) (nMems n) -> fst (pHome P c) = i ->
    dSecond (nDesc n) = true -> pLive P c = true -> lastCell (pOp P) (pBody P) (pMem P) (pN P) c;
  tReduction : forall i n c k, nth_error (lNodes l) i = Some n -> nCov n = true -> In (snd (pHome P c)) (nMems n) -> fst (pHome P c) = i ->
    dReduction (nDesc n) = true -> mRed (snd (pHome P c)) = Some k -> reductionCell (pOp P) (pBody P) (pMem P) (pN P) k c;
  (* a called function accesses global variables of nodes which are related with its node only *)
  tCalls : forall i c, i < pN P -> (exists e, In e (pTrace P i) /\ cellOf e = c /\ origOf e = true) ->
    (forall v, pVar P c = Some v -> ~ In v (lLocals l)) /\ (forall v, mSearch (snd (pHome P c)) <> SLocal v)
    /\ exists j n, nth_error (lNodes l) j = Some n /\ sideEffect n = true /\ lRelated l (fst (pHome P c)) j = true;
  (* the loop variable is not changed by calls *)
  tHead : forall h i c, lHead l = Some h -> pVar P c = Some h -> i < pN P -> ~ exists e, In e (pTrace P i) /\ cellOf e = c /\ origOf e = true;
  (* a node has memory locations, distances are known for dependencies only *)
  tNodes : forall n, In n (lNodes l) -> nMems n <> [] /\
    forall t, In t (nMems n) -> (mFlow t <> None -> dFlow (mDesc t) = true) /\ (mAnti t <> None -> dAnti (mDesc t) = true);
  (* automatic variables declared in the loop are written before they are read and they are not used after the loop *)
  tAuto : forall c v, pVar P c = Some v -> In v (lLocals l) -> pAuto P v = true ->
    privateCell (pOp P) (pBody P) (pMem P) (pN P) c /\ pLive P c = false;
  tOps : reductionOp (pOp P) (pIdent P)
}.

(** Clauses for cells; automatic variables declared in the loop are private, static ones are shared *)
Definition varIn (P : program) (vs : list nat) (c : nat) : bool :=
  match pVar P c with Some v => isIn v vs | None => false end.
Definition redOf (P : program) (cl : clauses) (c : nat) : option nat :=
  match pVar P c with
  | Some v => option_map fst (find (fun x => Nat.eqb (snd x) v) (cRed cl))
  | None => None
  end.
Definition privOf (P : program) (l : loopInfo) (cl : clauses) (c : nat) : bool :=
  varIn P (cInd cl :: filter (pAuto P) (lLocals l) ++ cPriv cl ++ cLast cl ++ cFirst cl ++ map snd (cRed cl)) c.
(** Memory after the sequential loop *)
Definition seqFinal (P : program) (cl : clauses) : mem := fun c =>
  if varIn P [cInd cl] c then pEnd P else seqMem (pOp P) (pBody P) (pMem P) (pN P) c.

(** Any parallel execution of an accepted loop leaves the same values as the sequential one in cells
    which are used later *)
Definition C66_claim (cond : loopInfo -> program -> Prop) : Prop :=
  forall l P cl parts ts sh ts',
    exploitLoop l = Some cl -> truth l P -> cond l P ->
    distributed (pN P) parts ->
    Forall2 (starts (pIdent P) (pMem P) (varIn P (cFirst cl)) (redOf P cl)) parts ts ->
    psteps (pOp P) (pBody P) (privOf P l cl) (pMem P) ts sh ts' -> Forall finished ts' ->
    forall c, pLive P c = true ->
    parFinal (pOp P) (varIn P (cLast cl)) (redOf P cl) (pN P) parts sh ts' c = seqFinal P cl c.

(** Variables declared in the loop are automatic ones *)
Definition autoLocals (l : loopInfo) (P : program) : Prop := forall v, In v (lLocals l) -> pAuto P v = true.
(** The loop variable is not used after the loop *)
Definition deadHead (l : loopInfo) (P : program) : Prop :=
  forall h c, lHead l = Some h -> pVar P c = Some h -> pLive P c = false.
(** A node without traits of other kinds is written on the last but one iteration *)
Definition handled (d : desc) : bool :=
  dShared d || dReadonly d || dInduction d || dPrivate d || dReduction d || dAnti d || dFlow d || dOutput d.
Definition lastKnown (l : loopInfo) : Prop :=
  forall n, In n (lNodes l) -> nCov n = true -> handled (nDesc n) = false -> dSecond (nDesc n) = true.
(** Memory which has to be private is related with a variable *)
Definition noUnknown (l : loopInfo) : Prop :=
  forall n t, In n (lNodes l) -> nCov n = true -> dShared (nDesc n) || dReadonly (nDesc n) = false -> In t (nMems n) -> mSearch t <> SUnknown.
