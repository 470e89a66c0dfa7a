(** Specification of elimination of unreachable code: execution of statements, a meaning of a text,
    what a profile tells about an execution. *)
From Coq Require Import List Bool Arith ZArith.
From Verif Require Import UnrModel.
Import ListNotations.

(** ** Execution.  [sVisits] are executed regions. *)
Record st := St { sVars : nat -> Z; sCalls : list (nat * Z); sVisits : list nat }.
Definition setVar (v : nat) (z : Z) (s : st) : st := St (fun x => if Nat.eqb x v then z else sVars s x) (sCalls s) (sVisits s).
Definition addCall (f : nat) (z : Z) (s : st) : st := St (sVars s) ((f, z) :: sCalls s) (sVisits s).
Definition visit (r : nat) (s : st) : st := St (sVars s) (sCalls s) (r :: sVisits s).
Definition b2z (b : bool) : Z := if b then 1%Z else 0%Z.
Inductive outcome := Normal | Brk | Ret (z : Z).

Section Sem.
(** binary operators, conversions of types, results of called functions *)
Variable op : nat -> Z -> Z -> Z.
Variable conv : nat -> Z -> Z.
Variable oracle : nat -> Z -> list (nat * Z) -> Z.
Fixpoint eval (e : expr) (s : st) : Z * st :=
  match e with
  | EConst z => (z, s)
  | EVar v => (sVars s v, s)
  | EBin f a b => let '(x, s) := eval a s in let '(y, s) := eval b s in (op f x y, s)
  | EAssign v e => let '(x, s) := eval e s in (x, setVar v x s)
  | ECall f e => let '(x, s) := eval e s in (oracle f x (sCalls s), addCall f x s)
  | EParen e => eval e s
  | EComma a b => let '(_, s) := eval a s in eval b s
  | ELog true a r b => let '(x, s) := eval a s in if Z.eqb x 0 then (0%Z, s) else let '(y, s) := eval b (visit r s) in (b2z (negb (Z.eqb y 0)), s)
  | ELog false a r b => let '(x, s) := eval a s in if Z.eqb x 0 then let '(y, s) := eval b (visit r s) in (b2z (negb (Z.eqb y 0)), s) else (1%Z, s)
  | ECond c rt t kt rf f kf =>
    let '(x, s) := eval c s in
    if Z.eqb x 0 then let '(y, s) := eval f (visit rf s) in (conv kf y, s)
    else let '(y, s) := eval t (visit rt s) in (conv kt y, s)
  end.
Definition idOf (s : stmt) : nat :=
  match s with
  | SEmpty i | SExpr i _ | SDecl i _ _ | SRet i _ | SBreak i | SBlock i _ | SIf i _ _ _ | SWhile i _ _ | SFor i _ _ _ _ => i
  end.
Definition evalO (o : option expr) (s : st) : st := match o with Some e => snd (eval e s) | None => s end.
(** a missing condition is true *)
Definition evalC (o : option expr) (s : st) : Z * st := match o with Some e => eval e s | None => (1%Z, s) end.
(** A variable which is declared in a scope gets its outer value at the end of the scope *)
Fixpoint exec (n : nat) (l : list stmt) (s : st) : option (outcome * st) :=
  match n with
  | 0 => None
  | S n =>
    match l with
    | [] => Some (Normal, s)
    | x :: l =>
      let s := visit (idOf x) s in
      match x with
      | SEmpty _ => exec n l s
      | SExpr _ e => exec n l (snd (eval e s))
      | SDecl _ v e =>
        let '(z, s) := eval e s in
        match exec n l (setVar v z s) with Some (o, s1) => Some (o, setVar v (sVars s v) s1) | None => None end
      | SRet _ e => let '(z, s) := eval e s in Some (Ret z, s)
      | SBreak _ => Some (Brk, s)
      | SBlock _ b =>
        match exec n b s with
        | Some (Normal, s) => exec n l s
        | r => r
        end
      | SIf _ c t f =>
        let '(z, s) := eval c s in
        match exec n (if Z.eqb z 0 then match f with Some f => [f] | None => [] end else [t]) s with
        | Some (Normal, s) => exec n l s
        | r => r
        end
      | SWhile i c b =>
        let '(z, s) := eval c s in
        if Z.eqb z 0 then exec n l s
        else match exec n [b] s with
             | Some (Normal, s) => exec n (SWhile i c b :: l) s
             | Some (Brk, s) => exec n l s
             | r => r
             end
      | SFor i (Some (IDecl v e)) c inc b =>
        let '(z, s) := eval e s in
        match exec n [SFor i None c inc b] (setVar v z s) with
        | Some (Normal, s1) => exec n l (setVar v (sVars s v) s1)
        | Some (o, s1) => Some (o, setVar v (sVars s v) s1)
        | None => None
        end
      | SFor i (Some (IExpr e)) c inc b => exec n (SFor i None c inc b :: l) (snd (eval e s))
      | SFor i None c inc b =>
        let '(z, s) := evalC c s in
        if Z.eqb z 0 then exec n l s
        else match exec n [b] s with
             | Some (Normal, s) => exec n (SFor i None c inc b :: l) (evalO inc s)
             | Some (Brk, s) => exec n l s
             | r => r
             end
      end
    end
  end.
End Sem.

(** ** A meaning of a text *)
Fixpoint parseS (n : nat) (ts : list token) : option (stmt * list token) :=
  match n with
  | 0 => None
  | S n =>
    match ts with
    | TSemi :: r => Some (SEmpty 0, r)
    | TExpr e :: TSemi :: r => Some (SExpr 0 e, r)
    | TDecl v e :: TSemi :: r => Some (SDecl 0 v e, r)
    | TRet e :: TSemi :: r => Some (SRet 0 e, r)
    | TBreak :: TSemi :: r => Some (SBreak 0, r)
    | TOpen :: r => match parseL n r with Some (l, TClose :: r) => Some (SBlock 0 l, r) | _ => None end
    | TIf c :: r =>
      match parseS n r with
      | Some (t, TElse :: r) => match parseS n r with Some (f, r) => Some (SIf 0 c t (Some f), r) | None => None end
      | Some (t, r) => Some (SIf 0 c t None, r)
      | None => None
      end
    | TWhile c :: r => match parseS n r with Some (b, r) => Some (SWhile 0 c b, r) | None => None end
    | TFor i c e :: r => match parseS n r with Some (b, r) => Some (SFor 0 i c e b, r) | None => None end
    | _ => None
    end
  end
with parseL (n : nat) (ts : list token) : option (list stmt * list token) :=
  match n with
  | 0 => None
  | S n =>
    match ts with
    | [] => Some ([], [])
    | TClose :: _ => Some ([], ts)
    | _ => match parseS n ts with
           | Some (s, r) => match parseL n r with Some (l, r) => Some (s :: l, r) | None => None end
           | None => None
           end
    end
  end.
Definition parse (ts : list token) : option (list stmt) :=
  match parseL (2 * length ts + 1) ts with Some (l, []) => Some l | _ => None end.

(** ** Claims *)
(** If a profile covers all executed regions then the new text is correct and its execution ends in
    the same way: the same values of variables, the same calls of functions, the same result *)
Definition C68_claim (cond : (nat -> bool) -> (nat -> nat) -> (nat -> bool) -> list stmt -> Prop) : Prop :=
  forall op conv oracle (cmp : nat -> bool) count hm p vars n o s,
    (forall f x y, cmp f = true -> op f x y = 0%Z \/ op f x y = 1%Z) -> (forall z, conv 0 z = z) ->
    exec op conv oracle n p (St vars [] []) = Some (o, s) ->
    (forall r, In r (sVisits s) -> 0 < count r) ->
    cond cmp count hm p ->
    exists p' n' s', parse (eliminate count hm p) = Some p' /\
      exec op conv oracle n' p' (St vars [] []) = Some (o, s') /\ sVars s' = sVars s /\ sCalls s' = sCalls s.

(** Conditions:
    - [xOr]: if a value of a disjunction is used then its left operand is 0 or 1
    - [xType]: a remaining branch of a conditional operator is not converted
    - [xComma]: a comma operator does not become a part of an assignment, a call or a declaration
    - [xPlace]: a semicolon follows a conditional operator if its condition has side effects, otherwise
      nothing is removed inside the condition
    - [xBraces]: branches and bodies are compound statements
    - [xMacro]: a header of a loop which is not executed is not in a macro
    - [xFor]: there are no side effects in a header of a loop which is not executed except for the
      condition of the loop without an increment *)
Record conds := Conds { xOr : bool; xType : bool; xComma : bool; xPlace : bool; xBraces : bool; xMacro : bool; xFor : bool }.
Section Conditions.
Variable cmp : nat -> bool.
Variable count : nat -> nat.
Variable hm : nat -> bool.
Variable X : conds.
Definition demand (x b : bool) : bool := if x then b else true.
Definition isNone {A : Type} (o : option A) : bool := match o with None => true | _ => false end.
(** the value is 0 or 1 *)
Fixpoint isBool (e : expr) : bool :=
  match e with
  | ELog _ _ _ _ => true
  | EBin f _ _ => cmp f
  | EParen e => isBool e
  | _ => false
  end.
(** the rest of an expression is a comma operator without parentheses *)
Fixpoint exposed (e : expr) : bool :=
  match e with
  | EComma _ _ => true
  | EAssign _ e => exposed e
  | ELog _ a r b => unrE count r b && exposed a
  | ECond c rt t _ rf f _ =>
    if unrE count rt t then negb (sideEffect c) && exposed f
    else if unrE count rf f then negb (sideEffect c) && exposed t
    else false
  | _ => false
  end.
(** [val]: a value of an expression is used, otherwise its truth is used only;
    [last]: a semicolon follows the expression *)
Fixpoint exprOk (val last : bool) (e : expr) : bool :=
  match e with
  | EConst _ | EVar _ => true
  | EBin _ a b => exprOk true false a && exprOk true false b
  | EAssign _ e => exprOk true last e && demand (xComma X) (negb (exposed e))
  | ECall _ e => exprOk true false e && demand (xComma X) (negb (exposed e))
  | EParen e => exprOk val false e
  | EComma a b => exprOk false false a && exprOk val last b
  | ELog k a r b =>
    if unrE count r b then (k || demand (val && xOr X) (isBool a)) && exprOk (negb k && val) false a
    else exprOk false false a && exprOk false false b
  | ECond c rt t kt rf f kf =>
    exprOk false false c &&
    (if unrE count rt t
     then demand (xType X) (kf =? 0)
          && demand (xPlace X) (if sideEffect c then last || (endsParen f && negb (edits count f)) else negb (edits count c))
          && exprOk val last f
     else if unrE count rf f
     then demand (xType X) (kt =? 0)
          && demand (xPlace X) (if sideEffect c then last else negb (edits count c))
          && exprOk val false t
     else exprOk true false t && exprOk true last f)
  end.
Definition declOk (e : expr) : bool := exprOk true true e && demand (xComma X) (negb (exposed e)).
Definition initOk (o : option forInit) : bool :=
  match o with Some (IDecl _ e) => declOk e | Some (IExpr e) => exprOk false true e | None => true end.
Definition optOk (last : bool) (o : option expr) : bool := match o with Some e => exprOk false last e | None => true end.
Fixpoint stmtOk (s : stmt) : bool :=
  unrS count s ||
  match s with
  | SEmpty _ | SBreak _ => true
  | SExpr _ e => exprOk false true e
  | SDecl _ _ e => declOk e
  | SRet _ e => exprOk true true e
  | SBlock _ l => forallb stmtOk l
  | SIf _ c t f =>
    exprOk false false c && stmtOk t && demand (xBraces X) (isBlock t)
    && match f with Some f => stmtOk f && demand (xBraces X) (isBlock f) | None => true end
  | SWhile i c b =>
    exprOk false false c && stmtOk b && demand (xBraces X) (isBlock b) && demand (xMacro X) (negb (unrS count b && hm i))
  | SFor i init c inc b =>
    initOk init && optOk true c && optOk false inc && stmtOk b && demand (xBraces X) (isBlock b)
    && demand (xFor X && unrS count b && negb (isDeclInit init || hm i))
         (isNone (optEffect (initExpr init)) || negb (isNone (optEffect c)))
    && demand (xFor X && unrS count b && negb (isDeclInit init || hm i)) (isNone (optEffect c) || isNone inc)
  end.
End Conditions.
Definition C68_with (X : conds) : Prop := C68_claim (fun cmp count hm p => forallb (stmtOk cmp count hm X) p = true).

(** ** Coverage *)
(** locations of segments are ordered *)
Fixpoint sorted (segs : list segment) : Prop :=
  match segs with
  | [] => True
  | s :: r => match r with [] => True | t :: _ => segLe s (sgLine t) (sgCol t) = true /\ sorted r end
  end.
(** A segment is active in a range if it starts inside the range or it is the last one which starts
    before the range *)
Definition active (segs : list segment) (i bl bc el ec : nat) : Prop :=
  exists s, nth_error segs i = Some s /\ segLe s el ec = true /\
    forall t, nth_error segs (S i) = Some t -> segLe t bl bc = false.
Definition notExecuted (s : segment) : Prop := sgHas s = true /\ sgCount s = 0.
Definition C68_coverage_claim (cond : list segment -> nat -> nat -> nat -> nat -> Prop) : Prop :=
  forall segs bl bc el ec, sorted segs -> locLe bl bc el ec = true -> cond segs bl bc el ec ->
    exists r, isUnreachable segs bl bc el ec = Some r /\
      (r = true <-> forall i s, nth_error segs i = Some s -> active segs i bl bc el ec -> notExecuted s).
