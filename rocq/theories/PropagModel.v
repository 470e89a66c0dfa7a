(** Model of propagation of expressions in sources,
    /repo/lib/Transform/Clang/ExprPropagation.cpp:138-811 (DefUseVisitor, findAvailableDecls,
    rememberPossibleAssignment, unparseReplacement).

    Simplifications.  Results of the search for variables which hold an IR value (findMetadata, C69) are
    input data: for each use which may be replaced they list replaced variables, and for each definition
    they list variables which hold its operands.  Expressions have no side effects, except a
    right-hand side which is an increment or a call.  Compound assignments, pointers, elements of arrays
    and members of structures are omitted; a global variable is the only kind of memory.  A text is an
    expression in which names are resolved again.  Clauses and macros are a set of declarations which
    may be propagated; include files are omitted.  There is a single pair of instructions for each pair
    of a location of a definition and a location of its use. *)
From Coq Require Import List Bool Arith ZArith.
Import ListNotations.

(** ** Programs *)
Inductive expr :=
| EConst (l : nat) (t : nat) (z : Z)
| EVar (l : nat) (d : nat)
| EBin (l : nat) (f : nat) (a b : expr)
| ECall (l : nat) (f : nat) (a : expr)  (* a function which does not write memory *)
| EPre (l : nat) (d : nat)              (* an increment in the result of the transformation *)
| EBad.                                 (* a name which is not declared *)
Inductive rhs :=
| RExpr (e : expr)
| RInc (l : nat) (d : nat)              (* ++d *)
| RCall (l : nat) (f : nat) (a : expr). (* a function with side effects *)
Inductive stmt :=
| SAssign (v : nat) (r : rhs)
| SStore (l : nat) (g : nat) (r : rhs)  (* assignment to memory is an instruction *)
| SDecl (v : nat) (r : rhs)
| SEff (r : rhs)
| SIf (c : expr) (t f : list stmt)
| SWhile (c : expr) (b : list stmt)
| SSwitch (l : nat) (c : expr) (k : Z) (b : list stmt). (* the switch instruction is at [l] *)

(** ** Declarations *)
Inductive kind := KLocal | KGlobal (pointer : bool) | KFun (readnone : bool).
Record decls := Decls {
  knd : nat -> kind; nam : nat -> nat; ty : nat -> nat;
  active : nat -> bool  (* mDeclsToPropagate or mActivePropagate, ExprPropagation.cpp:427-429 *)
}.
Definition isLocal (D : decls) (d : nat) : bool := match knd D d with KLocal => true | _ => false end.
(** GlobalInfoExtractor::findOutermostDecl *)
Definition isOutermost (D : decls) (d : nat) : bool := negb (isLocal D d).

(** Types: int, unsigned, floating-point (a value is a number of quarters), long, others *)
Definition tInt := 0. Definition tUInt := 1. Definition tFlt := 2. Definition tLong := 3.
(** Text of a constant, ExprPropagation.cpp:852-869: the type of the value of the text.  A floating-point
    constant without a fraction is printed as an integer (APFloat::toString). *)
Definition literal (t : nat) (z : Z) : option (nat * Z) :=
  match t with
  | 0 => Some (tInt, z)
  | 1 => Some (if Z.ltb z 2147483648 then tInt else tLong, z)
  | 2 => if Z.eqb (Z.modulo z 4) 0 then Some (tInt, Z.div z 4) else Some (tFlt, z)
  | 3 => Some (if Z.ltb (Z.abs z) 2147483648 then tInt else tLong, z)
  | _ => None
  end.

(** ** Input data *)
(** Operands of a definition which are found in 717-724: the definition itself, a value of a local
    variable at the definition, another value, a global variable, a function, a call *)
Inductive operand := OSelf | OVar (d : nat) | OVal (n : nat) | OGlob (g : nat) | OFun (f : nat) | OCall (readonly nothrow : bool).
(** A use of a definition: the location, operands and variables which hold their values at the use *)
Record use := Use { uLoc : nat; uHold : list (operand * list nat) }.
Inductive subst := TVar (w : nat) | TConst (z : Z).
Record facts := Facts {
  (** 946-985: location, a replaced variable, a variable (the first which has obtained the value) or a
      constant *)
  direct : list (nat * nat * subst);
  (** 777-811: definitions with their locations *)
  defs : list (nat * list use)
}.

(** 794-806: variables which hold the value of the definition *)
Definition candidates (u : use) : list nat :=
  flat_map (fun e : operand * list nat => match fst e with OSelf => snd e | _ => [] end) (uHold u).
(** 725-765; nothing is available if there are no candidates, 807-808 *)
Definition badCall (o : operand) : bool := match o with OCall ro nt => negb ro || negb nt | _ => false end.
Definition available (D : decls) (u : use) : list nat :=
  match candidates u with
  | [] => []
  | _ =>
    if existsb (fun e => badCall (fst e)) (uHold u) then []
    else flat_map (fun e : operand * list nat =>
           match fst e with
           | OFun f => [f]
           | OGlob g => match knd D g with KGlobal false => [g] | _ => [] end
           | OCall _ _ | OSelf | OVar _ | OVal _ => snd e
           end) (uHold u)
  end.

(** ** Replacements: mUseLocs, ReplacementT *)
Record repl := Repl { rText : expr; rAccess : list nat }.
Definition useMap := list (nat * list (nat * repl)).
Definition lookup {A} (k : nat) (m : list (nat * A)) : option A :=
  match find (fun e => fst e =? k) m with Some e => Some (snd e) | None => None end.
Definition update {A} (k : nat) (f : option A -> A) (m : list (nat * A)) : list (nat * A) :=
  (k, f (lookup k m)) :: m.
Definition setRepl (u v : nat) (r : repl) (m : useMap) : useMap :=
  update u (fun o => (v, r) :: match o with Some l => l | None => [] end) m.
(** A location which has no replacements overrides outer locations (getReplacement, 962) *)
Definition touch (u : nat) (m : useMap) : useMap :=
  update u (fun o => match o with Some l => l | None => [] end) m.
(** runOnFunction, 962-985 *)
Definition initMap (D : decls) (F : facts) : useMap :=
  fold_left (fun m (e : nat * nat * subst) =>
    let '(u, v, s) := e in
    match s with
    | TVar w => if nam D w =? nam D v then touch u m else setRepl u v (Repl (EVar 0 w) [w]) m
    | TConst z => match literal (ty D v) z with
                  | Some (t, z) => setRepl u v (Repl (EConst 0 t z) []) m
                  | None => touch u m
                  end
    end) (direct F) [].

(** ** checkAssignmentRHS, 581-631 *)
Fixpoint refsE (e : expr) : list nat :=
  match e with
  | EConst _ _ _ | EBad => []
  | EVar _ d | EPre _ d => [d]
  | EBin _ _ a b => refsE a ++ refsE b
  | ECall _ f a => f :: refsE a
  end.
Definition refsR (r : rhs) : list nat :=
  match r with RExpr e => refsE e | RInc _ d => [d] | RCall _ f a => f :: refsE a end.
Definition textR (r : rhs) : expr :=
  match r with RExpr e => e | RInc l d => EPre l d | RCall _ _ _ => EBad end.
(** 594-613: references which are not examined yet, examined references *)
Fixpoint scanRefs (avail refs seen : list nat) : bool * list nat * list nat :=
  match refs with
  | [] => (true, [], seen)
  | d :: rest => if existsb (Nat.eqb d) avail then scanRefs avail rest (d :: seen)
                 else (false, refs, d :: seen)
  end.
(** 593-630: the list of references which are not examined and the flag are common for all uses *)
Fixpoint checkUses (D : decls) (text : expr) (us : list use) (refs seen : list nat) (ok : bool) (m : useMap) : useMap :=
  match us with
  | [] => m
  | u :: us =>
    let '(b, refs, seen) := scanRefs (available D u) refs seen in
    let ok := ok && b in
    let m := if ok then fold_left (fun m c => if existsb (Nat.eqb c) seen then m
                                             else setRepl (uLoc u) c (Repl text seen) m)
                                  (candidates u) (touch (uLoc u) m)
             else m in
    checkUses D text us refs seen ok m
  end.
Definition checkRHS (D : decls) (r : rhs) (us : list use) (m : useMap) : useMap :=
  checkUses D (textR r) us (refsR r) [] true m.

(** ** DefUseVisitor *)
Definition visTop (D : decls) (vis : list nat) (name : nat) : option nat := find (fun d => nam D d =? name) vis.
(** A name in the new text *)
Definition resolve (D : decls) (scope : list nat) (d : nat) : option nat :=
  match visTop D scope (nam D d) with
  | Some x => Some x
  | None => if isLocal D d then None else Some d
  end.
Fixpoint resolveE (D : decls) (scope : list nat) (e : expr) : expr :=
  match e with
  | EConst _ _ _ | EBad => e
  | EVar l d => match resolve D scope d with Some x => EVar l x | None => EBad end
  | EPre l d => match resolve D scope d with Some x => EPre l x | None => EBad end
  | EBin l f a b => EBin l f (resolveE D scope a) (resolveE D scope b)
  | ECall l f a => match resolve D scope f with Some x => ECall l x (resolveE D scope a) | None => EBad end
  end.
(** 449-464 *)
Definition accessible (D : decls) (vis : list nat) (d : nat) : bool :=
  match visTop D vis (nam D d) with Some x => x =? d | None => false end || isOutermost D d.
Definition enter (m : useMap) (l : nat) (top : option (list (nat * repl))) : option (list (nat * repl)) :=
  match lookup l m with Some e => Some e | None => top end.
(** VisitDeclRefExpr, 421-477; [vis] is the stack of the visitor, [scope] is the actual scope *)
Definition visitRef (D : decls) (vis scope : list nat) (top : option (list (nat * repl))) (l d : nat) : expr :=
  match top with
  | Some e =>
    if active D d then
      match lookup d e with
      | Some r => if forallb (accessible D vis) (rAccess r) then resolveE D scope (rText r) else EVar l d
      | None => EVar l d
      end
    else EVar l d
  | None => EVar l d
  end.
(** TraverseStmt, 281-303 *)
Fixpoint trE (D : decls) (m : useMap) (vis scope : list nat) (top : option (list (nat * repl))) (e : expr) : expr :=
  match e with
  | EConst _ _ _ | EBad | EPre _ _ => e
  | EVar l d => visitRef D vis scope (enter m l top) l d
  | EBin l f a b => let top := enter m l top in EBin l f (trE D m vis scope top a) (trE D m vis scope top b)
  | ECall l f a => ECall l f (trE D m vis scope (enter m l top) a)
  end.
(** An operand of an increment is excluded, 548-569 *)
Definition trR (D : decls) (m : useMap) (vis scope : list nat) (top : option (list (nat * repl))) (r : rhs) : rhs :=
  match r with
  | RExpr e => RExpr (trE D m vis scope top e)
  | RInc l d => RInc l d
  | RCall l f a => RCall l f (trE D m vis scope (enter m l top) a)
  end.
Definition locE (e : expr) : nat :=
  match e with EConst l _ _ | EVar l _ | EBin l _ _ _ | ECall l _ _ | EPre l _ => l | EBad => 0 end.
Definition locR (r : rhs) : nat := match r with RExpr e => locE e | RInc l _ | RCall l _ _ => l end.
Definition afterRHS (D : decls) (F : facts) (r : rhs) (m : useMap) : useMap :=
  match lookup (locR r) (defs F) with Some us => checkRHS D r us m | None => m end.

Section Tr.
Variable D : decls.
Variable F : facts.
(** TraverseBinaryOperator 363-378, TraverseVarDecl 411-424, scopes 634-660; the stack of declarations
    is restored at the end of a compound statement *)
Fixpoint trS (top : option (list (nat * repl))) (s : stmt) (m : useMap) (vis : list nat) : stmt * useMap * list nat :=
  let trL := fix trL top (b : list stmt) m vis :=
    match b with
    | [] => ([], m, vis)
    | s :: b => let '(s', m, vis) := trS top s m vis in
                let '(b', m, vis) := trL top b m vis in (s' :: b', m, vis)
    end in
  match s with
  | SAssign v r => (SAssign v (trR D m vis vis top r), afterRHS D F r m, vis)
  | SStore l g r => (SStore l g (trR D m vis vis (enter m l top) r), afterRHS D F r m, vis)
  | SDecl v r =>
    match lookup (locR r) (defs F) with
    | Some _ => (SDecl v (trR D m vis (v :: vis) top r), afterRHS D F r m, v :: vis)
    | None => (SDecl v (trR D m (v :: vis) (v :: vis) top r), m, v :: vis)
    end
  | SEff r => (SEff (trR D m vis vis top r), m, vis)
  | SIf c t f =>
    let c' := trE D m vis vis top c in
    let '(t', m, _) := trL top t m vis in
    let '(f', m, _) := trL top f m vis in (SIf c' t' f', m, vis)
  | SWhile c b =>
    let c' := trE D m vis vis top c in
    let '(b', m, _) := trL top b m vis in (SWhile c' b', m, vis)
  | SSwitch l c k b =>
    let top := enter m l top in
    let c' := trE D m vis vis top c in
    let '(b', m, _) := trL top b m vis in (SSwitch l c' k b', m, vis)
  end.
Fixpoint trL (top : option (list (nat * repl))) (b : list stmt) (m : useMap) (vis : list nat) : list stmt * useMap * list nat :=
  match b with
  | [] => ([], m, vis)
  | s :: b => let '(s', m, vis) := trS top s m vis in
              let '(b', m, vis) := trL top b m vis in (s' :: b', m, vis)
  end.
(** [params] are parameters of the function *)
Definition propagate (params : list nat) (p : list stmt) : list stmt := fst (fst (trL None p (initMap D F) params)).
End Tr.
