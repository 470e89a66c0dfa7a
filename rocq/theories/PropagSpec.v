(** Specification of propagation of expressions (C70): executions of programs, truth of facts about
    values, claims.

    A value is a type and a word.  An execution records evaluated locations together with the current
    state and with states in which right-hand sides of assignments have been evaluated. *)
From Coq Require Import List Bool Arith ZArith.
From Verif Require Import PropagModel.
Import ListNotations.

Inductive val := Val (t : nat) (z : Z) | VBad.
Definition word (v : val) : Z := match v with Val _ z => z | VBad => 0%Z end.
(** Meaning of operators, functions and conversions *)
Record meaning := Meaning {
  opTy : nat -> nat -> nat -> nat; opZ : nat -> nat -> nat -> Z -> Z -> Z;
  cvt : nat -> nat -> Z -> Z;
  incZ : nat -> Z -> Z;
  fnZ : nat -> val -> (nat -> val) -> Z;              (* functions which do not write memory *)
  imZ : nat -> val -> list (nat * val) -> Z;          (* results of other functions *)
  effZ : nat -> val -> list (nat * val) -> nat -> Z   (* new values of global variables *)
}.
Definition state := nat -> val.
Definition upd (s : state) (d : nat) (v : val) : state := fun x => if x =? d then v else s x.
Definition conv (M : meaning) (t : nat) (v : val) : val :=
  match v with Val t' z => Val t (if t =? t' then z else cvt M t' t z) | VBad => VBad end.

Section Sem.
Variable D : decls.
Variable M : meaning.
(** What a function may read *)
Definition readable (f : nat) (s : state) : nat -> val :=
  fun d => match knd D f, knd D d with KFun false, KGlobal _ => s d | _, _ => VBad end.
Definition inc (v : val) : val := match v with Val t z => Val t (incZ M t z) | VBad => VBad end.
Fixpoint eval (s : state) (e : expr) : val :=
  match e with
  | EConst _ t z => Val t z
  | EVar _ d => s d
  | EBin _ f a b => match eval s a, eval s b with
                    | Val t1 z1, Val t2 z2 => Val (opTy M f t1 t2) (opZ M f t1 t2 z1 z2)
                    | _, _ => VBad
                    end
  | ECall _ f a => match eval s a with
                   | VBad => VBad
                   | x => Val (ty D f) (fnZ M f x (readable f s))
                   end
  | EPre _ d => inc (s d)
  | EBad => VBad
  end.
(** Side effects of increments, they take place after the evaluation *)
Fixpoint after (s : state) (e : expr) : state :=
  match e with
  | EPre _ d => upd s d (inc (s d))
  | EBin _ _ a b => after (after s a) b
  | ECall _ _ a => after s a
  | _ => s
  end.
Fixpoint locsE (e : expr) : list nat :=
  match e with
  | EConst l _ _ | EVar l _ | EPre l _ => [l]
  | EBin l _ a b => l :: locsE a ++ locsE b
  | ECall l _ a => l :: locsE a
  | EBad => []
  end.

(** The last right-hand side which has been evaluated at a location, the type of the assigned variable,
    the state before the evaluation and the assigned value *)
Record origin := Origin { oRhs : rhs; oTy : nat; oBefore : state; oVal : val }.
Record world := World { vs : state; calls : list (nat * val); ghost : nat -> option origin }.
(** A location is evaluated in a state *)
Record event := Event { eLoc : nat; eState : state; eGhost : nat -> option origin }.
Definition events (w : world) (ls : list nat) : list event := map (fun l => Event l (vs w) (ghost w)) ls.
Definition effects (w : world) (e : expr) : world := World (after (vs w) e) (calls w) (ghost w).
(** Evaluation of a right-hand side *)
Definition runR (w : world) (r : rhs) : val * world * list event :=
  match r with
  | RExpr e => (eval (vs w) e, effects w e, events w (locsE e))
  | RInc _ d => (inc (vs w d), World (upd (vs w) d (inc (vs w d))) (calls w) (ghost w), [])
  | RCall l f a =>
    let x := eval (vs w) a in
    (Val (ty D f) (imZ M f x (calls w)),
     World (fun d => match knd D d with KGlobal _ => Val (ty D d) (effZ M f x (calls w) d) | _ => vs (effects w a) d end)
           ((f, x) :: calls w) (ghost w),
     events w (l :: locsE a))
  end.
Definition assign (w : world) (v : nat) (r : rhs) : world * list event :=
  let '(x, w', evs) := runR w r in
  let y := conv M (ty D v) x in
  (World (upd (vs w') v y) (calls w')
         (fun l => if l =? locR r then Some (Origin r (ty D v) (vs w) y) else ghost w' l), evs).
Definition isTrue (v : val) : bool := negb (Z.eqb (word v) 0).
(** [None] is exhausted fuel *)
Fixpoint exec (n : nat) (p : list stmt) (w : world) : option world * list event :=
  match n with
  | 0 => (None, [])
  | S n =>
    match p with
    | [] => (Some w, [])
    | s :: p =>
      let '(o, evs) :=
        match s with
        | SAssign v r | SDecl v r => let '(w, evs) := assign w v r in (Some w, evs)
        | SStore l g r =>
          let '(_, w1, _) := runR w r in
          let '(w', evs) := assign w g r in (Some w', evs ++ events w1 [l])
        | SEff r => let '(_, w, evs) := runR w r in (Some w, evs)
        | SIf c t f => let '(o, evs) := exec n (if isTrue (eval (vs w) c) then t else f) (effects w c) in
                       (o, events w (locsE c) ++ evs)
        | SWhile c b =>
          if isTrue (eval (vs w) c)
          then let '(o, evs) := exec n (b ++ [SWhile c b]) (effects w c) in (o, events w (locsE c) ++ evs)
          else (Some (effects w c), events w (locsE c))
        | SSwitch l c k b =>
          if Z.eqb (word (eval (vs w) c)) k
          then let '(o, evs) := exec n b (effects w c) in (o, events w (l :: locsE c) ++ evs)
          else (Some (effects w c), events w (l :: locsE c))
        end in
      match o with
      | None => (None, evs)
      | Some w => let '(o, evs') := exec n p w in (o, evs ++ evs')
      end
    end
  end.
(** Observable result: values of variables and calls of functions with side effects *)
Definition result (o : option world * list event) : option (state * list (nat * val)) :=
  match fst o with Some w => Some (vs w, calls w) | None => None end.
Definition start (s : state) : world := World s [] (fun _ => None).
Definition typed (s : state) : Prop := forall d, exists z, s d = Val (ty D d) z.

(** ** Facts are true: words are equal *)
Definition holdsOp (o : origin) (s : state) (op : operand) (c : nat) : Prop :=
  match op with
  | OSelf => word (s c) = word (oVal o)
  | OVar a => word (s c) = word (oBefore o a)
  | _ => True
  end.
Definition factsOk (F : facts) (ev : event) : Prop :=
  (forall v w, In (eLoc ev, v, TVar w) (direct F) -> word (eState ev v) = word (eState ev w)) /\
  (forall v z, In (eLoc ev, v, TConst z) (direct F) -> word (eState ev v) = z) /\
  (forall dl us u, In (dl, us) (defs F) -> In u us -> uLoc u = eLoc ev ->
     exists o, eGhost ev dl = Some o /\
       forall op hs c, In (op, hs) (uHold u) -> In c hs -> holdsOp o (eState ev) op c).
End Sem.

(** ** Well-formed programs and facts *)
(** Assignments: the assigned variable and the right-hand side *)
Fixpoint assigns (s : stmt) : list (nat * rhs) :=
  match s with
  | SAssign v r | SDecl v r | SStore _ v r => [(v, r)]
  | SEff r => []
  | SIf _ t f => flat_map assigns t ++ flat_map assigns f
  | SWhile _ b | SSwitch _ _ _ b => flat_map assigns b
  end.
Fixpoint declared (s : stmt) : list (nat * rhs) :=
  match s with
  | SDecl v r => [(v, r)]
  | SIf _ t f => flat_map declared t ++ flat_map declared f
  | SWhile _ b | SSwitch _ _ _ b => flat_map declared b
  | _ => []
  end.
Fixpoint switches (s : stmt) : list nat :=
  match s with
  | SIf _ t f => flat_map switches t ++ flat_map switches f
  | SWhile _ b => flat_map switches b
  | SSwitch l _ _ b => l :: flat_map switches b
  | _ => []
  end.
(** Locations of statements which are executed as a single instruction *)
Fixpoint stores (s : stmt) : list (nat * nat) :=
  match s with
  | SStore l g _ => [(l, g)]
  | SIf _ t f => flat_map stores t ++ flat_map stores f
  | SWhile _ b | SSwitch _ _ _ b => flat_map stores b
  | _ => []
  end.
Fixpoint sourceE (e : expr) : bool :=
  match e with
  | EConst _ _ _ | EVar _ _ => true
  | EBin _ _ a b => sourceE a && sourceE b
  | ECall _ _ a => sourceE a
  | EPre _ _ | EBad => false
  end.
Definition sourceR (r : rhs) : bool := match r with RExpr e => sourceE e | RInc _ _ => true | RCall _ _ a => sourceE a end.
Definition exprsR (r : rhs) : list expr := match r with RExpr e => [e] | RInc _ _ => [] | RCall _ _ a => [a] end.
Fixpoint exprs (s : stmt) : list expr :=
  match s with
  | SAssign _ r | SStore _ _ r | SDecl _ r | SEff r => exprsR r
  | SIf c t f => c :: flat_map exprs t ++ flat_map exprs f
  | SWhile c b | SSwitch _ c _ b => c :: flat_map exprs b
  end.
Definition wfProg (D : decls) (params : list nat) (p : list stmt) : Prop :=
  (forall v r, In (v, r) (flat_map assigns p) -> sourceR r = true) /\
  (forall e, In e (flat_map exprs p) -> sourceE e = true) /\
  (* a location belongs to a single right-hand side *)
  (forall v r v' r', In (v, r) (flat_map assigns p) -> In (v', r') (flat_map assigns p) -> locR r = locR r' -> r = r' /\ ty D v = ty D v') /\
  (forall v, In v params -> isLocal D v = true) /\
  (forall v r, In (v, r) (flat_map declared p) -> isLocal D v = true) /\
  (forall l g, In (l, g) (flat_map stores p) -> isLocal D g = false).
Definition wfFacts (D : decls) (F : facts) (p : list stmt) : Prop :=
  (* only local variables are described by llvm.dbg.value *)
  (forall u v s, In (u, v, s) (direct F) -> isLocal D v = true /\ match s with TVar w => isLocal D w = true | _ => True end) /\
  (forall dl us u op hs c, In (dl, us) (defs F) -> In u us -> In (op, hs) (uHold u) -> In c hs -> isLocal D c = true) /\
  (forall dl us, In (dl, us) (defs F) -> forall us', In (dl, us') (defs F) -> us = us') /\
  (* operands include a call with side effects *)
  (forall dl us u v l f a, In (dl, us) (defs F) -> In u us -> In (v, RCall l f a) (flat_map assigns p) -> l = dl ->
     exists ro nt hs, In (OCall ro nt, hs) (uHold u) /\ badCall (OCall ro nt) = true) /\
  (* called functions are among operands, others are not *)
  (forall dl us u f hs, In (dl, us) (defs F) -> In u us -> In (OFun f, hs) (uHold u) -> exists b, knd D f = KFun b).

(** ** Optional conditions *)
Record conds := Conds {
  xMem : bool;     (* right-hand sides do not read memory *)
  xUses : bool;    (* a definition has a single use *)
  xShadow : bool;  (* local variables have no names of global objects *)
  xInit : bool;    (* a variable which is initialized with a definition has a unique name *)
  xSwitch : bool;  (* values are not used in switch instructions *)
  xInc : bool;     (* no increments in right-hand sides *)
  xConst : bool;   (* a text of a constant has the type of the variable *)
  xSign : bool;    (* variables with the same word have the same type *)
  xConv : bool;    (* no conversion in assignments *)
  xOps : bool      (* a variable of a right-hand side may hold its own operand only *)
}.
(** The type of an expression *)
Fixpoint tyE (D : decls) (M : meaning) (e : expr) : nat :=
  match e with
  | EConst _ t _ => t
  | EVar _ d | EPre _ d => ty D d
  | EBin _ f a b => opTy M f (tyE D M a) (tyE D M b)
  | ECall _ f _ => ty D f
  | EBad => 0
  end.
Fixpoint pureE (D : decls) (e : expr) : bool :=
  match e with
  | EConst _ _ _ | EBad => true
  | EVar _ d | EPre _ d => isLocal D d
  | EBin _ _ a b => pureE D a && pureE D b
  | ECall _ f a => match knd D f with KFun true => pureE D a | _ => false end
  end.
Definition pureR (D : decls) (r : rhs) : bool := match r with RExpr e => pureE D e | _ => true end.
(** A C constant without a suffix which is equal to [z] has type [t]: unsigned numbers need a suffix, a
    floating-point number (a number of quarters) needs a fraction, a long number is large; constants of other
    types are not replaced *)
Definition constOk (t : nat) (z : Z) : bool :=
  match t with
  | 0 => true
  | 1 => false
  | 2 => negb (Z.eqb (Z.modulo z 4) 0)
  | 3 => Z.leb 2147483648 (Z.abs z)
  | _ => true
  end.
Definition condsOk (X : conds) (D : decls) (M : meaning) (F : facts) (params : list nat) (p : list stmt) : Prop :=
  (xMem X = true -> forall v r us, In (v, r) (flat_map assigns p) -> In (locR r, us) (defs F) -> pureR D r = true) /\
  (xUses X = true -> forall dl us, In (dl, us) (defs F) -> length us <= 1) /\
  (xShadow X = true -> forall d g, (In d params \/ exists r, In (d, r) (flat_map declared p)) -> isLocal D g = false -> nam D d <> nam D g) /\
  (xInit X = true -> forall v r us d, In (v, r) (flat_map declared p) -> In (locR r, us) (defs F) -> nam D d = nam D v -> d = v) /\
  (xSwitch X = true -> forall l, In l (flat_map switches p) ->
     (forall v s, ~ In (l, v, s) (direct F)) /\ (forall dl us u, In (dl, us) (defs F) -> In u us -> uLoc u <> l)) /\
  (xInc X = true -> forall v l d us, In (v, RInc l d) (flat_map assigns p) -> ~ In (l, us) (defs F)) /\
  (xConst X = true -> forall u v z, In (u, v, TConst z) (direct F) ->
     constOk (ty D v) z = true) /\
  (xSign X = true -> forall u v w, In (u, v, TVar w) (direct F) -> ty D v = ty D w) /\
  (xConv X = true -> forall v r us u c, In (v, r) (flat_map assigns p) -> In (locR r, us) (defs F) -> In u us -> In c (candidates u) ->
     ty D v = tyE D M (textR r) /\ ty D c = tyE D M (textR r)) /\
  (xOps X = true -> forall v r us u d op hs, In (v, r) (flat_map assigns p) -> In (locR r, us) (defs F) -> In u us ->
     In d (refsR r) -> In (op, hs) (uHold u) -> In d hs -> op = OVar d).

(** C70: the transformed program gives the same results *)
Definition C70_claim (X : conds) : Prop :=
  forall D M F params p s,
    wfProg D params p -> wfFacts D F p -> typed D s -> condsOk X D M F params p ->
    (forall n ev, In ev (snd (exec D M n p (start s))) -> factsOk F ev) ->
    forall n, result (exec D M n (propagate D F params p) (start s)) = result (exec D M n p (start s)).
