(** Model of elimination of unreachable code in sources,
    /repo/lib/Transform/Clang/UnreachableCodeElimination.cpp:72-654 (UnreachableCodeVisitor).

    Simplifications.  A text is a list of tokens, an expression is a single token, so the result of
    an edit inside an expression is an expression or a broken text.  Removal of a range removes its
    tokens; an edit of removed text or a repeated edit of the same text breaks it.  The only macros
    are macros in headers of statements ([hm]).  Labels, goto, switch, do-while and declarations
    without initializers are omitted.  All statements are inside the compound statement which is
    marked with the directive. *)
From Coq Require Import List Bool Arith ZArith.
Import ListNotations.

(** ** Coverage: isUnreachable, UnreachableCodeElimination.cpp:551-588 *)
Record segment := Seg { sgLine : nat; sgCol : nat; sgCount : nat; sgHas : bool }.
(** the comparison of locations in 559-560, 570-571 *)
Definition locLe (l1 c1 l2 c2 : nat) : bool := (l1 <? l2) || ((l1 =? l2) && (c1 <=? c2)).
Definition segLe (s : segment) (l c : nat) : bool := locLe (sgLine s) (sgCol s) l c.
(** 563-575: the binary search in a part of the vector which starts with [bi] and has [size] elements;
    [None] is an access out of range or exhausted fuel *)
Fixpoint bsearch (fuel : nat) (segs : list segment) (bi size : nat) (l c : nat) : option nat :=
  match fuel with
  | 0 => None
  | S fuel =>
    if size =? 1 then Some bi
    else
      let half := Nat.div2 size in
      match nth_error segs (bi + half) with
      | None => None
      | Some h => if segLe h l c then bsearch fuel segs (bi + half) (size - half) l c
                  else bsearch fuel segs bi half l c
      end
  end.
(** 576-585: && binds tighter than ||, so the element after the last one is read *)
Fixpoint scan (segs : list segment) (el ec : nat) : option bool :=
  match segs with
  | [] => None
  | s :: segs =>
    if (sgLine s <? el) || ((sgLine s =? el) && (sgCol s <=? ec))
    then if negb (sgHas s) || negb (sgCount s =? 0) then Some false else scan segs el ec
    else Some true
  end.
Definition isUnreachable (segs : list segment) (bl bc el ec : nat) : option bool :=
  match segs with
  | [] => None
  | s :: _ =>
    if (bl <? sgLine s) || ((sgLine s =? bl) && (bc <? sgCol s)) then Some true
    else match bsearch (length segs) segs 0 (length segs) bl bc with
         | None => None
         | Some bi => scan (skipn bi segs) el ec
         end
  end.

(** ** Expressions.  Right operands of logical operators and branches of conditional operators have
    their own counters, they are identified with numbers.  Branches are converted to a common type. *)
Inductive expr :=
| EConst (z : Z) | EVar (v : nat)
| EBin (f : nat) (a b : expr)
| EAssign (v : nat) (e : expr)
| ECall (f : nat) (e : expr)
| EParen (e : expr)
| EComma (a b : expr)
| ELog (isAnd : bool) (a : expr) (r : nat) (b : expr)
| ECond (c : expr) (rt : nat) (t : expr) (kt : nat) (rf : nat) (f : expr) (kf : nat).
(** findSideEffect, /repo/lib/Support/Clang/Utils.cpp:486-499 *)
Fixpoint sideEffect (e : expr) : bool :=
  match e with
  | EConst _ | EVar _ => false
  | EBin _ a b | EComma a b | ELog _ a _ b => sideEffect a || sideEffect b
  | EAssign _ _ | ECall _ _ => true
  | EParen e => sideEffect e
  | ECond c _ t _ _ f _ => sideEffect c || sideEffect t || sideEffect f
  end.
Fixpoint regions (e : expr) : list nat :=
  match e with
  | EConst _ | EVar _ => []
  | EBin _ a b | EComma a b => regions a ++ regions b
  | EAssign _ e | ECall _ e | EParen e => regions e
  | ELog _ a r b => regions a ++ r :: regions b
  | ECond c rt t _ rf f _ => regions c ++ (rt :: regions t) ++ (rf :: regions f)
  end.
(** The last token of an expression is a closing parenthesis *)
Fixpoint endsParen (e : expr) : bool :=
  match e with
  | EConst _ | EVar _ => false
  | EBin _ _ b | EComma _ b | ELog _ _ _ b => endsParen b
  | EAssign _ e => endsParen e
  | ECall _ _ | EParen _ => true
  | ECond _ _ _ _ _ f _ => endsParen f
  end.
(** [v = a, b] is [(v = a), b] *)
Fixpoint assignTo (v : nat) (e : expr) : expr :=
  match e with EComma a b => EComma (assignTo v a) b | _ => EAssign v e end.

(** ** Statements, each one has its own counter *)
Inductive forInit := IDecl (v : nat) (e : expr) | IExpr (e : expr).
Inductive stmt :=
| SEmpty (i : nat)
| SExpr (i : nat) (e : expr)
| SDecl (i : nat) (v : nat) (e : expr)
| SRet (i : nat) (e : expr)
| SBreak (i : nat)
| SBlock (i : nat) (l : list stmt)
| SIf (i : nat) (c : expr) (t : stmt) (f : option stmt)
| SWhile (i : nat) (c : expr) (b : stmt)
| SFor (i : nat) (init : option forInit) (c inc : option expr) (b : stmt).
Definition oregions (o : option expr) : list nat := match o with Some e => regions e | None => [] end.
Definition iregions (o : option forInit) : list nat := match o with Some (IDecl _ e) | Some (IExpr e) => regions e | None => [] end.
Fixpoint sregions (s : stmt) : list nat :=
  match s with
  | SEmpty i | SBreak i => [i]
  | SExpr i e | SDecl i _ e | SRet i e => i :: regions e
  | SBlock i l => i :: flat_map sregions l
  | SIf i c t f => i :: regions c ++ sregions t ++ match f with Some f => sregions f | None => [] end
  | SWhile i c b => i :: regions c ++ sregions b
  | SFor i init c inc b => i :: iregions init ++ oregions c ++ oregions inc ++ sregions b
  end.

(** ** Tokens *)
Inductive token :=
| TExpr (e : expr) | TDecl (v : nat) (e : expr) | TSemi | TOpen | TClose | TRet (e : expr) | TBreak
| TIf (c : expr) | TElse | TWhile (c : expr) | TFor (init : option forInit) (c inc : option expr)
| TBad.

Section Elimination.
(** a number of executions of a region of a text *)
Variable count : nat -> nat.
(** a header of a statement is in a macro *)
Variable hm : nat -> bool.
(** isUnreachable for a range: all counters in the range are zero *)
Definition zero (rs : list nat) : bool := forallb (fun r => count r =? 0) rs.
Definition unrE (r : nat) (e : expr) : bool := zero (r :: regions e).
Definition unrS (s : stmt) : bool := zero (sregions s).

(** There are edits inside an expression *)
Fixpoint edits (e : expr) : bool :=
  match e with
  | EConst _ | EVar _ => false
  | EBin _ a b | EComma a b => edits a || edits b
  | EAssign _ e | ECall _ e | EParen e => edits e
  | ELog _ a r b => unrE r b || edits a || edits b
  | ECond c rt t _ rf f _ => unrE rt t || unrE rf f || edits c || edits t || edits f
  end.
Definition bind {A B : Type} (o : option A) (f : A -> option B) : option B := match o with Some x => f x | None => None end.
(** TraverseBinaryOperator, 182-199, and TraverseConditionalOperator, 201-278.  [last]: the next token
    after the expression is a semicolon.  [None] is a broken text. *)
Fixpoint trE (last : bool) (e : expr) : option expr :=
  match e with
  | EConst _ | EVar _ => Some e
  | EBin f a b => bind (trE false a) (fun a => bind (trE false b) (fun b => Some (EBin f a b)))
  | EAssign v e => bind (trE last e) (fun e => Some (assignTo v e))
  | ECall f e => bind (trE false e) (fun e => match e with EComma _ _ => None | _ => Some (ECall f e) end)
  | EParen e => bind (trE false e) (fun e => Some (EParen e))
  | EComma a b => bind (trE false a) (fun a => bind (trE last b) (fun b => Some (EComma a b)))
  | ELog k a r b =>
    if unrE r b then trE false a
    else bind (trE false a) (fun a => bind (trE false b) (fun b => Some (ELog k a r b)))
  | ECond c rt t kt rf f kf =>
    if unrE rt t then
      if sideEffect c then
        (* ')' is inserted before the last token, 221 *)
        if last || (endsParen f && negb (edits f))
        then bind (trE false c) (fun c => bind (trE last f) (fun f => Some (EParen (EComma c f))))
        else None
      else if edits c then None (* removed text is edited, 237 *)
      else trE last f
    else if unrE rf f then
      if sideEffect c then
        (* ')' is inserted into a range which is removed, 260 and 272 *)
        if last then bind (trE false c) (fun c => bind (trE false t) (fun t => Some (EParen (EComma c t))))
        else None
      else if edits c then None
      else trE false t
    else bind (trE false c) (fun c => bind (trE false t) (fun t => bind (trE last f) (fun f => Some (ECond c rt t kt rf f kf))))
  end.
Definition tokE (last : bool) (e : expr) (k : expr -> list token) : list token :=
  match trE last e with Some e => k e | None => [TBad] end.
Definition tokO (last : bool) (o : option expr) (k : option expr -> list token) : list token :=
  match o with Some e => tokE last e (fun e => k (Some e)) | None => k None end.
(** a declaration: [int v = a, b] declares [b] *)
Definition tokD (e : expr) (k : expr -> list token) : list token :=
  tokE true e (fun e => match e with EComma _ _ => [TBad] | _ => k e end).
Definition tokI (o : option forInit) (k : option forInit -> list token) : list token :=
  match o with
  | Some (IDecl v e) => tokD e (fun e => k (Some (IDecl v e)))
  | Some (IExpr e) => tokE true e (fun e => k (Some (IExpr e)))
  | None => k None
  end.

Definition isBlock (s : stmt) : bool := match s with SBlock _ _ => true | _ => false end.
Definition isDecl (s : stmt) : bool := match s with SDecl _ _ _ => true | _ => false end.
(** none_of(children, DeclStmt), 335-337 *)
Definition declChild (s : stmt) : bool :=
  match s with
  | SBlock _ l => existsb isDecl l
  | SFor _ (Some (IDecl _ _)) _ _ _ => true
  | _ => false
  end.
(** a semicolon remains after removal of a range of a statement, 475-476 *)
Fixpoint endsSemi (s : stmt) : bool :=
  match s with
  | SEmpty _ | SBlock _ _ => false
  | SExpr _ _ | SDecl _ _ _ | SRet _ _ | SBreak _ => true
  | SIf _ _ t None => endsSemi t
  | SIf _ _ _ (Some f) => endsSemi f
  | SWhile _ _ b | SFor _ _ _ _ b => endsSemi b
  end.
Definition optEffect (o : option expr) : option expr := match o with Some e => if sideEffect e then Some e else None | None => None end.
Definition isDeclInit (o : option forInit) : bool := match o with Some (IDecl _ _) => true | _ => false end.
Definition initExpr (o : option forInit) : option expr := match o with Some (IDecl _ e) | Some (IExpr e) => Some e | None => None end.

(** TraverseStmt, 91-135; TraverseIfStmt, 280-397; TraverseWhileStmt, 399-445; TraverseForStmt, 447-547 *)
Fixpoint trS (s : stmt) : list token :=
  if unrS s then []
  else match s with
  | SEmpty _ => [TSemi]
  | SExpr _ e => tokE true e (fun e => [TExpr e; TSemi])
  | SDecl _ v e => tokD e (fun e => [TDecl v e; TSemi])
  | SRet _ e => tokE true e (fun e => [TRet e; TSemi])
  | SBreak _ => [TBreak; TSemi]
  | SBlock _ l => TOpen :: flat_map trS l ++ [TClose]
  | SIf i c t f =>
    let thenU := unrS t in
    let elseU := match f with Some f => unrS f | None => false end in
    if negb thenU && negb elseU then
      tokE false c (fun c => TIf c :: trS t ++ match f with Some f => TElse :: trS f | None => [] end)
    else if hm i then
      tokE false c (fun c => TIf c :: (if thenU then [TSemi] else trS t)
        ++ match f with Some f => TElse :: (if elseU then [TSemi] else trS f) | None => [] end)
    else
      let reach := match t, f with
                   | t, None => if thenU then [] else trS t
                   | t, Some f =>
                     if thenU && elseU then []
                     else let r := if thenU then f else t in
                          let rt := if thenU then trS f else trS t in
                          if declChild r then (if isBlock r then rt else [TBad]) (* braces are inserted before the last token, 345 *)
                          else if isBlock r then removelast (tl rt) else rt
                   end in
      (if sideEffect c then tokE false c (fun c => [TExpr c; TSemi]) else []) ++ reach
  | SWhile i c b =>
    if unrS b then
      if sideEffect c then
        if hm i then tokE false c (fun c => [TWhile c]) else tokE false c (fun c => [TExpr c; TSemi])
      else if hm i then [TWhile c] else []
    else tokE false c (fun c => TWhile c :: trS b)
  | SFor i init c inc b =>
    if unrS b then
      if isDeclInit init || hm i then
        tokI init (fun init => tokO true c (fun c => TFor init c None :: (if isBlock b || endsSemi b then [TSemi] else [])))
      else
        match optEffect (initExpr init), optEffect c with
        | None, None => []
        | Some _, None => [TBad] (* the last token of the initialization is removed, 535 *)
        | init, Some c =>
          tokO true init (fun init => tokE true c (fun c =>
            match init with Some e => [TExpr e; TSemi] | None => [] end ++ [TExpr c; TSemi]
            (* the increment is not removed, 541: a comma operator *)
            ++ match inc with Some e => [TExpr e] | None => [] end))
        end
    else tokI init (fun init => tokO true c (fun c => tokO false inc (fun inc => TFor init c inc :: trS b)))
  end.
Definition eliminate (l : list stmt) : list token := flat_map trS l.
End Elimination.
