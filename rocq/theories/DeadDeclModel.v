(** Model of the elimination of dead declarations,
    /repo/lib/Transform/Clang/DeadDeclsElimination.cpp:
    - DeclVisitor, 64-251
    and of findSideEffect, /repo/lib/Support/Clang/Utils.cpp:486-500.

    Simplifications.  A function is a syntax tree with a part of expressions and statements of
    C, an assignment has a number (its location).  RemoveText is modelled as the removal of
    statements, declarations of a group are removed one by one.  A result of for_each_macro
    for a scope is a part of the scope.  Diagnostics, classes, labels and switches are not
    modelled. *)
From Coq Require Import List Bool Arith ZArith.
Import ListNotations.
Local Open Scope nat_scope.

Inductive expr :=
| ELit (z : Z)
| ERef (d : nat)                       (* DeclRefExpr of a variable *)
| EConst (t : nat) (z : Z)             (* DeclRefExpr of a constant of an enumeration t *)
| EAddr (d : nat)                      (* &d *)
| EDeref (e : expr)
| EOp (o : nat) (l : list expr)
| EAssign (a : nat) (l r : expr)
| ECompound (o : nat) (l r : expr)     (* compound assignment *)
| EInc (o : nat) (l : expr)            (* increment or decrement *)
| ECall (f : nat) (l : list expr).
(** a number, a type, extern, volatile, a size of an array (if it is not a constant), an
    initializer *)
Record vdecl := mkVar { vId : nat; vType : option nat; vExt : bool; vVol : bool; vSize : option expr; vInit : option expr }.
Inductive decl := DVar (v : vdecl) | DPar (d : nat) | DTyp (t : nat).
Inductive stmt :=
| SExpr (e : expr)
| SDecl (ds : list decl)
| SBlock (macro : bool) (l : list stmt)
| SIf (e : expr) (s1 s2 : stmt)
| SWhile (e : expr) (s : stmt)
| SFor (macro : bool) (init : stmt) (c : expr) (i : stmt) (b : stmt)
| SRet (e : option expr)
| SBreak
| SNull.

(** findSideEffect *)
Fixpoint hasEffect (e : expr) : bool :=
  match e with
  | ELit _ | ERef _ | EConst _ _ | EAddr _ => false
  | EDeref e => hasEffect e
  | EOp _ l => existsb hasEffect l
  | EAssign _ _ _ | ECompound _ _ _ | EInc _ _ | ECall _ _ => true
  end.

(** DeclarationInfo, 65-70: a declaration, macros in its scope, dead accesses *)
Record entry := mkE { eDecl : decl; eMacro : bool; eAcc : list nat }.
Definition declId (d : decl) : nat := match d with DVar v => vId v | DPar d => d | DTyp t => t end.
(** mDeadDecls *)
Definition dead := list entry.
Definition isDead (st : dead) (d : nat) : bool := existsb (fun e => Nat.eqb (declId (eDecl e)) d) st.
Definition emplace (e : entry) (st : dead) : dead := if isDead st (declId (eDecl e)) then st else st ++ [e].
Definition erase (d : nat) (st : dead) : dead := filter (fun e => negb (Nat.eqb (declId (eDecl e)) d)) st.
Definition addAccess (d a : nat) (st : dead) : dead :=
  map (fun e => if Nat.eqb (declId (eDecl e)) d then mkE (eDecl e) (eMacro e) (eAcc e ++ [a]) else e) st.

(** VisitDeclRefExpr, 87-91, TraverseBinaryOperator, 108-128: [blk] means that a parent is a
    compound statement *)
Fixpoint visitE (blk : bool) (e : expr) (st : dead) {struct e} : dead :=
  let visitL := fix visitL (l : list expr) (st : dead) : dead := match l with [] => st | e :: l => visitL l (visitE false e st) end in
  match e with
  | ELit _ | EConst _ _ => st
  | ERef d | EAddr d => erase d st
  | EDeref e => visitE false e st
  | EOp _ l => visitL l st
  | EAssign a l r =>
    match l with
    | ERef d =>
      if blk && negb (hasEffect r) && isDead st d
      then visitE false r (addAccess d a st)
      else visitE false r (visitE false l st)
    | _ => visitE false r (visitE false l st)
    end
  | ECompound _ l r => visitE false r (visitE false l st)
  | EInc _ l => visitE false l st
  | ECall _ l => visitL l st
  end.
Definition visitO (e : option expr) (st : dead) : dead := match e with Some e => visitE false e st | None => st end.
(** VisitVarDecl, VisitTypeDecl, VisitTypeLoc, 74-100 *)
Definition visitD (macro : bool) (d : decl) (st : dead) : dead :=
  let st := emplace (mkE d macro []) st in
  match d with
  | DVar v => visitO (vInit v) (visitO (vSize v) (match vType v with Some t => erase t st | None => st end))
  | _ => st
  end.
Fixpoint visitDs (macro : bool) (ds : list decl) (st : dead) : dead :=
  match ds with [] => st | d :: ds => visitDs macro ds (visitD macro d st) end.
(** TraverseStmt, 130-137; [macro] describes the nearest scope (getScope, 238-243) *)
Fixpoint visitS (blk macro : bool) (s : stmt) (st : dead) {struct s} : dead :=
  match s with
  | SExpr e => visitE blk e st
  | SDecl ds => visitDs macro ds st
  | SBlock m l => (fix visitL (l : list stmt) (st : dead) : dead := match l with [] => st | s :: l => visitL l (visitS true m s st) end) l st
  | SIf e s1 s2 => visitS false macro s2 (visitS false macro s1 (visitE false e st))
  | SWhile e s => visitS false macro s (visitE false e st)
  | SFor m i c n b => visitS false m b (visitS false m n (visitE false c (visitS false m i st)))
  | SRet e => visitO e st
  | SBreak | SNull => st
  end.
Fixpoint visitParams (ps : list nat) (st : dead) : dead := match ps with [] => st | p :: ps => visitParams ps (emplace (mkE (DPar p) false []) st) end.

(** eliminateDeadDecls, 140-178 *)
Definition optEffect (e : option expr) : bool := match e with Some e => hasEffect e | None => false end.
Definition mayRemove (e : entry) : bool :=
  match eDecl e with
  | DPar _ => false
  | DVar v => negb (optEffect (vInit v)) && negb (eMacro e)
  | DTyp _ => negb (eMacro e)
  end.
(** groups of declarations, VisitDeclStmt, 102-106, and 179-200 *)
Fixpoint groups (s : stmt) : list (list decl) :=
  match s with
  | SDecl ds => match ds with _ :: _ :: _ => [ds] | _ => [] end
  | SBlock _ l => flat_map groups l
  | SIf _ s1 s2 => groups s1 ++ groups s2
  | SWhile _ s => groups s
  | SFor _ i _ n b => groups i ++ groups n ++ groups b
  | _ => []
  end.
Definition checkGroup (st : dead) (g : list decl) : dead :=
  if forallb (fun d => isDead st (declId d)) g then st else fold_left (fun st d => erase (declId d) st) g st.
Definition deadDecls (params : list nat) (body : stmt) : dead :=
  fold_left checkGroup (groups body) (filter mayRemove (visitS false false body (visitParams params []))).

(** Removal, 207-225 *)
Section Remove.
Variable st : dead.
Definition removedAssign (s : stmt) : bool :=
  match s with SExpr (EAssign a _ _) => existsb (fun e => existsb (Nat.eqb a) (eAcc e)) st | _ => false end.
Definition liveDecls (ds : list decl) : list decl := filter (fun d => negb (isDead st (declId d))) ds.
Fixpoint remove (s : stmt) {struct s} : stmt :=
  match s with
  | SDecl ds => match liveDecls ds with [] => SNull | ds => SDecl ds end
  | SBlock m l => SBlock m (map (fun s => if removedAssign s then SNull else remove s) l)
  | SIf e s1 s2 => SIf e (remove s1) (remove s2)
  | SWhile e s => SWhile e (remove s)
  | SFor m i c n b => SFor m (remove i) c (remove n) (remove b)
  | _ => s
  end.
End Remove.
Definition eliminate (params : list nat) (body : stmt) : stmt := remove (deadDecls params body) body.
