(** Model of the source-level inliner, /repo/lib/Transform/Clang/Inline.cpp:181-773 (the visitor and compile),
    898-908 and 1018-1059 (checks of instantiations), 1163-1222 (the transformation of functions).

    Simplifications.  Each function has two parameters of an integer type.  There are no pointers, static
    variables, labels, switches and macros; names of functions are not hidden.  Nested braces around calls of
    one statement are joined, a return which is replaced is always enclosed in braces, a label is inserted
    even if it is not used.  All return statements are reachable. *)
From Coq Require Import List Bool Arith ZArith.
Import ListNotations.

(** ** Programs *)
Inductive seqk := KAnd | KOr | KComma.
(** [bw] marks bitwise operators, [m] marks a call which is inside a scope of an inline clause *)
Inductive expr :=
| EConst (z : Z)
| EVar (x : nat)
| EBin (bw : bool) (o : nat) (a b : expr)
| ESeq (k : seqk) (a b : expr)
| ECond (c a b : expr)
| EAssign (x : nat) (a : expr)
| ECall (m : bool) (f : nat) (a b : expr).
(** [SLoop c i s] is [for (; c; i) s]; [SBlock b (Some l)] is a compound statement with a label at its end.
    [SDecl] is a group of declarators. *)
Inductive stmt :=
| SExpr (e : expr)
| SDecl (ds : list (nat * option expr))
| SIf (e : expr) (s1 s2 : stmt)
| SLoop (c i : expr) (s : stmt)
| SFor (init : stmt) (c i : expr) (s : stmt)
| SBlock (b : list stmt) (l : option nat)
| SReturn (e : option expr)
| SGoto (l : nat).
Record func := Func { fP : nat; fQ : nat; fVoid : bool; fBody : list stmt }.
Definition mem (x : nat) (l : list nat) : bool := existsb (Nat.eqb x) l.
Definition remove (xs l : list nat) : list nat := filter (fun x => negb (mem x xs)) l.
Definition isComma (k : seqk) : bool := match k with KComma => true | _ => false end.

(** ** Names *)
Fixpoint freeE (e : expr) : list nat :=
  match e with
  | EConst _ => []
  | EVar x => [x]
  | EBin _ _ a b | ESeq _ a b | ECall _ _ a b => freeE a ++ freeE b
  | ECond c a b => freeE c ++ freeE a ++ freeE b
  | EAssign x a => x :: freeE a
  end.
Definition freeO (o : option expr) : list nat := match o with Some e => freeE e | None => [] end.
Fixpoint freeDs (ds : list (nat * option expr)) : list nat :=
  match ds with [] => [] | (x, o) :: ds => freeO o ++ remove [x] (freeDs ds) end.
Definition declS (s : stmt) : list nat := match s with SDecl ds => map fst ds | _ => [] end.
(** Free names of a statement *)
Fixpoint freeS (s : stmt) : list nat :=
  match s with
  | SExpr e => freeE e
  | SDecl ds => freeDs ds
  | SIf e s1 s2 => freeE e ++ freeS s1 ++ freeS s2
  | SLoop c i s => freeE c ++ freeE i ++ freeS s
  | SFor init c i s => freeS init ++ remove (declS init) (freeE c ++ freeE i ++ freeS s)
  | SBlock b _ => (fix freeL (b : list stmt) := match b with [] => [] | s :: b => freeS s ++ remove (declS s) (freeL b) end) b
  | SReturn o => freeO o
  | SGoto _ => []
  end.
Fixpoint freeL (b : list stmt) : list nat := match b with [] => [] | s :: b => freeS s ++ remove (declS s) (freeL b) end.
(** Names which are declared in a statement at any depth *)
Fixpoint declaredS (s : stmt) : list nat :=
  match s with
  | SDecl ds => map fst ds
  | SIf _ s1 s2 => declaredS s1 ++ declaredS s2
  | SLoop _ _ s => declaredS s
  | SFor init _ _ s => declaredS init ++ declaredS s
  | SBlock b _ => flat_map declaredS b
  | _ => []
  end.
(** getForwardDecls of a template, 214-225 and 267-281: external names which are used in a function *)
Definition globalsOf (F : func) : list nat := remove [fP F; fQ F] (freeL (fBody F)).
(** FunctionDecl::decls *)
Definition declsOf (F : func) : list nat := fP F :: fQ F :: flat_map declaredS (fBody F).

(** ** Renaming of parameters, 624-627 *)
Section Ren.
Variable r : nat -> nat.
Fixpoint renE (e : expr) : expr :=
  match e with
  | EConst z => EConst z
  | EVar x => EVar (r x)
  | EBin w o a b => EBin w o (renE a) (renE b)
  | ESeq k a b => ESeq k (renE a) (renE b)
  | ECond c a b => ECond (renE c) (renE a) (renE b)
  | EAssign x a => EAssign (r x) (renE a)
  | ECall m f a b => ECall m f (renE a) (renE b)
  end.
Definition renD (d : nat * option expr) : nat * option expr := (fst d, option_map renE (snd d)).
Fixpoint renS (s : stmt) : stmt :=
  match s with
  | SExpr e => SExpr (renE e)
  | SDecl ds => SDecl (map renD ds)
  | SIf e s1 s2 => SIf (renE e) (renS s1) (renS s2)
  | SLoop c i s => SLoop (renE c) (renE i) (renS s)
  | SFor init c i s => SFor (renS init) (renE c) (renE i) (renS s)
  | SBlock b l => SBlock (map renS b) l
  | SReturn o => SReturn (option_map renE o)
  | SGoto l => SGoto l
  end.
End Ren.
Definition parName (F : func) (p q x : nat) : nat := if x =? fP F then p else if x =? fQ F then q else x.

(** ** Return statements, 681-731: [last] means that a statement is the last one of a function.  Returns of a
    function which is not expanded are not changed. *)
Inductive mode := MRoot | MCallee (R L : nat).
Definition retS (m : mode) (last : bool) (o : option expr) : stmt :=
  match m with
  | MRoot => SReturn o
  | MCallee R L =>
    match o with
    | Some e => if last then SExpr (EAssign R e) else SBlock [SExpr (EAssign R e); SGoto L] None
    | None => if last then SExpr (EConst 0) else SGoto L
    end
  end.

(** ** Traversal of a function, 365-587, 631-669 and 1184-1219 *)
(** Braces are added if the parent is not a compound statement, 443-450 *)
Definition brace (t : list stmt) : stmt := match t with [s] => s | _ => SBlock t None end.
Section T.
(** Expansion of a call: a text which is inserted before a statement, a result if it is not void, a number
    which is used in new names *)
Variable H : nat -> expr -> expr -> nat -> option (list stmt * option expr * nat).
Variable M : mode.
(** Calls of an expression in the order of mCalls.  [dis]: a call is inside an operand which disables inline
    expansion, 392-393, 427-431, 552-576.  The last result is true if a call of a void function is expanded. *)
Fixpoint hoist (dis : bool) (e : expr) (k : nat) : list stmt * expr * nat * bool :=
  match e with
  | EConst _ | EVar _ => ([], e, k, false)
  | EBin w o a b =>
    let '(p1, a1, k1, v1) := hoist dis a k in
    let '(p2, b1, k2, v2) := hoist (dis || w) b k1 in
    (p1 ++ p2, EBin w o a1 b1, k2, v1 || v2)
  | ESeq s a b =>
    let '(p1, a1, k1, v1) := hoist (dis || isComma s) a k in
    let '(p2, b1, k2, v2) := hoist (dis || negb (isComma s)) b k1 in
    (p1 ++ p2, ESeq s a1 b1, k2, v1 || v2)
  | ECond c a b =>
    let '(p1, c1, k1, v1) := hoist true c k in
    let '(p2, a1, k2, v2) := hoist true a k1 in
    let '(p3, b1, k3, v3) := hoist true b k2 in
    (p1 ++ p2 ++ p3, ECond c1 a1 b1, k3, v1 || v2 || v3)
  | EAssign x a =>
    let '(p1, a1, k1, v1) := hoist dis a k in (p1, EAssign x a1, k1, v1)
  | ECall m f a b =>
    let '(p1, a1, k1, v1) := hoist dis a k in
    let '(p2, b1, k2, v2) := hoist dis b k1 in
    match (if m && negb dis then H f a1 b1 k2 else None) with
    | Some (p3, Some r, k3) => (p1 ++ p2 ++ p3, r, k3, v1 || v2)
    | Some (p3, None, k3) => (p1 ++ p2 ++ p3, EConst 0, k3, true)
    | None => (p1 ++ p2, ECall m f a1 b1, k2, v1 || v2)
    end
  end.
(** Calls of a group of declarators *)
Fixpoint hoistDs (ds : list (nat * option expr)) (k : nat) : list stmt * list (nat * option expr) * nat * bool :=
  match ds with
  | [] => ([], [], k, false)
  | (x, None) :: ds => let '(p, ds1, k1, v) := hoistDs ds k in (p, (x, None) :: ds1, k1, v)
  | (x, Some e) :: ds =>
    let '(p1, e1, k1, v1) := hoist false e k in
    let '(p2, ds1, k2, v2) := hoistDs ds k1 in
    (p1 ++ p2, (x, Some e1) :: ds1, k2, v1 || v2)
  end.
(** A text is inserted before a statement with a call, the statement is replaced if the function is void,
    1196-1218; a statement with a call in the initialization of a loop is the loop, 400-403 *)
Definition place (p : list stmt) (void : bool) (s : stmt) : list stmt := if void then p else p ++ [s].
Definition isNil (b : list stmt) : bool := match b with [] => true | _ => false end.
(** Statements; calls in conditions and increments of loops are not expanded, 398-399, 409, 557-566 *)
Fixpoint tS (last : bool) (s : stmt) (k : nat) : list stmt * nat :=
  match s with
  | SExpr e => let '(p, e1, k1, v) := hoist false e k in (place p v (SExpr e1), k1)
  | SDecl ds => let '(p, ds1, k1, v) := hoistDs ds k in (place p v (SDecl ds1), k1)
  | SIf e s1 s2 =>
    let '(p, e1, k1, v) := hoist false e k in
    let '(t1, k2) := tS false s1 k1 in
    let '(t2, k3) := tS false s2 k2 in
    (place p v (SIf e1 (brace t1) (brace t2)), k3)
  | SLoop c i s => let '(t, k1) := tS false s k in ([SLoop c i (brace t)], k1)
  | SFor (SExpr e) c i s =>
    let '(p, e1, k1, v) := hoist false e k in
    let '(t, k2) := tS false s k1 in
    (place p v (SFor (SExpr e1) c i (brace t)), k2)
  | SFor (SDecl ds) c i s =>
    let '(p, ds1, k1, v) := hoistDs ds k in
    let '(t, k2) := tS false s k1 in
    (place p v (SFor (SDecl ds1) c i (brace t)), k2)
  | SBlock b l =>
    let '(b1, k1) :=
      (fix tL (b : list stmt) (k : nat) := match b with
       | [] => ([], k)
       | s :: b => let '(t, k1) := tS false s k in let '(b1, k2) := tL b k1 in (t ++ b1, k2)
       end) b k in
    ([SBlock b1 l], k1)
  | SReturn (Some e) => let '(p, e1, k1, v) := hoist false e k in (place p v (retS M last (Some e1)), k1)
  | SReturn None => ([retS M last None], k)
  | _ => ([s], k)
  end.
(** A list of statements; [last]: the body of a function *)
Fixpoint tL (last : bool) (b : list stmt) (k : nat) : list stmt * nat :=
  match b with
  | [] => ([], k)
  | s :: b => let '(t, k1) := tS (last && isNil b) s k in let '(b1, k2) := tL last b k1 in (t ++ b1, k2)
  end.
End T.

(** ** Expansion of calls, 589-773 *)
Section P.
Variable fn : nat -> option func.
(** isNeedToInline after checks of templates *)
Variable enabled : nat -> bool.
(** 1018-1059: declarations of callers should not hide external names of a callee *)
Definition check (stack : list nat) (G : func) : bool :=
  forallb (fun h => match fn h with
                    | Some F => forallb (fun x => negb (mem x (globalsOf G))) (declsOf F)
                    | None => true
                    end) stack.
(** compile: [rec] transforms the body of a callee; parameters are declared at the beginning of its body *)
Definition compile (rec : mode -> list nat -> list stmt -> nat -> list stmt * nat) (stack : list nat)
    (g : nat) (a b : expr) (k : nat) : option (list stmt * option expr * nat) :=
  match fn g with
  | None => None
  | Some G =>
    if enabled g && check stack G then
      let '(R, L, p, q) := (k, S k, S (S k), S (S (S k))) in
      let '(t, k1) := rec (MCallee R L) (g :: stack) (map (renS (parName G p q)) (fBody G)) (S (S (S (S k)))) in
      Some ((if fVoid G then [] else [SDecl [(R, None)]]) ++
              [SBlock (SDecl [(p, Some a)] :: SDecl [(q, Some b)] :: t) (Some L)],
            if fVoid G then None else Some (EVar R), k1)
    else None
  end.
(** Calls which are nested deeper than [depth] are not expanded: the real recursion is not bounded, a larger
    bound does not change the result if the recursion finishes (C71) *)
Fixpoint inline (depth : nat) (m : mode) (stack : list nat) (b : list stmt) (k : nat) : list stmt * nat :=
  match depth with
  | 0 => tL (fun _ _ _ _ => None) m true b k
  | S depth => tL (compile (inline depth) stack) m true b k
  end.
(** 1163-1222; new names (addSuffix, 1235-1240) are numbers which are not less than [N] *)
Definition transform (depth N f : nat) : option func :=
  match fn f with
  | None => None
  | Some F => Some (Func (fP F) (fQ F) (fVoid F) (fst (inline depth MRoot [f] (fBody F) N)))
  end.
End P.
