(** Specification of inline expansion (C72): semantics of programs and the claim.

    Operands of an expression are evaluated in any order, and steps of operands may be mixed, a called function
    is executed as a whole, as in the C standard. *)
From Coq Require Import List Bool Arith ZArith.
From Verif Require Import InlineModel.
Import ListNotations.

(** Values of global and local variables; a local variable hides variables with the same name *)
Definition globals := nat -> Z.
Definition locals := list (nat * Z).
Fixpoint lookup (l : locals) (x : nat) : option Z :=
  match l with [] => None | (y, v) :: l => if x =? y then Some v else lookup l x end.
Fixpoint update (l : locals) (x : nat) (v : Z) : option locals :=
  match l with
  | [] => None
  | (y, w) :: l => if x =? y then Some ((y, v) :: l) else option_map (cons (y, w)) (update l x v)
  end.
Definition look (g : globals) (l : locals) (x : nat) : Z := match lookup l x with Some v => v | None => g x end.
Definition assignG (g : globals) (l : locals) (x : nat) (v : Z) : globals :=
  match update l x v with Some _ => g | None => fun y => if y =? x then v else g y end.
Definition assignL (l : locals) (x : nat) (v : Z) : locals := match update l x v with Some l1 => l1 | None => l end.

Section Expr.
(** Operators and calls: a function, values of arguments, globals, a result, new globals *)
Variable opf : nat -> Z -> Z -> Z.
Variable C : nat -> Z -> Z -> globals -> Z -> globals -> Prop.
Definition seqNext (k : seqk) (a : Z) (b : expr) : expr :=
  match k with
  | KAnd => if Z.eqb a 0 then EConst 0 else b
  | KOr => if Z.eqb a 0 then b else EConst 1
  | KComma => b
  end.
Inductive step : globals -> locals -> expr -> globals -> locals -> expr -> Prop :=
| StVar g l x : step g l (EVar x) g l (EConst (look g l x))
| StBin g l w o a b : step g l (EBin w o (EConst a) (EConst b)) g l (EConst (opf o a b))
| StSeq g l k a b : step g l (ESeq k (EConst a) b) g l (seqNext k a b)
| StCond g l c a b : step g l (ECond (EConst c) a b) g l (if Z.eqb c 0 then b else a)
| StAssign g l x a : step g l (EAssign x (EConst a)) (assignG g l x a) (assignL l x a) (EConst a)
| StCall g l m f a b v g2 : C f a b g v g2 -> step g l (ECall m f (EConst a) (EConst b)) g2 l (EConst v)
| StBin1 g l w o a b g2 l2 a2 : step g l a g2 l2 a2 -> step g l (EBin w o a b) g2 l2 (EBin w o a2 b)
| StBin2 g l w o a b g2 l2 b2 : step g l b g2 l2 b2 -> step g l (EBin w o a b) g2 l2 (EBin w o a b2)
| StSeq1 g l k a b g2 l2 a2 : step g l a g2 l2 a2 -> step g l (ESeq k a b) g2 l2 (ESeq k a2 b)
| StCond1 g l c a b g2 l2 c2 : step g l c g2 l2 c2 -> step g l (ECond c a b) g2 l2 (ECond c2 a b)
| StAssign1 g l x a g2 l2 a2 : step g l a g2 l2 a2 -> step g l (EAssign x a) g2 l2 (EAssign x a2)
| StCall1 g l m f a b g2 l2 a2 : step g l a g2 l2 a2 -> step g l (ECall m f a b) g2 l2 (ECall m f a2 b)
| StCall2 g l m f a b g2 l2 b2 : step g l b g2 l2 b2 -> step g l (ECall m f a b) g2 l2 (ECall m f a b2).
Inductive steps : globals -> locals -> expr -> globals -> locals -> expr -> Prop :=
| StepsNil g l e : steps g l e g l e
| StepsCons g l e g1 l1 e1 g2 l2 e2 : step g l e g1 l1 e1 -> steps g1 l1 e1 g2 l2 e2 -> steps g l e g2 l2 e2.
Definition eval (g : globals) (l : locals) (e : expr) (v : Z) (g2 : globals) (l2 : locals) : Prop := steps g l e g2 l2 (EConst v).
(** The value of a variable without initialization is arbitrary *)
Definition evalO (g : globals) (l : locals) (o : option expr) (v : Z) (g2 : globals) (l2 : locals) : Prop :=
  match o with Some e => eval g l e v g2 l2 | None => g2 = g /\ l2 = l end.
End Expr.

Inductive outcome := ONormal | OReturn (v : Z) | OGoto (l : nat).
(** The result of a function without a return statement is arbitrary *)
Definition result (o : outcome) (v : Z) : Prop := match o with ONormal => True | OReturn w => v = w | OGoto _ => False end.
Definition catch (l : option nat) (o : outcome) : outcome :=
  match o, l with OGoto x, Some y => if x =? y then ONormal else o | _, _ => o end.
Definition frame (F : func) (a b : Z) : locals := [(fQ F, b); (fP F, a)].

Section Stmt.
Variable opf : nat -> Z -> Z -> Z.
(** Functions which are not defined in the program *)
Variable ext : nat -> Z -> Z -> globals -> Z * globals.
Variable fn : nat -> option func.
(** Executions which finish, [n] bounds a number of steps *)
Fixpoint execN (n : nat) (b : list stmt) (g : globals) (l : locals) (o : outcome) (g2 : globals) (l2 : locals) {struct n} : Prop :=
  match n with
  | 0 => False
  | S n =>
    let C := fun f a b g v g2 =>
      match fn f with
      | None => ext f a b g = (v, g2)
      | Some F => exists o l2, execN n (fBody F) g (frame F a b) o g2 l2 /\ result o v
      end in
    let next := fun b o1 g1 l1 =>
      match o1 with
      | ONormal => execN n b g1 l1 o g2 l2
      | _ => o = o1 /\ g2 = g1 /\ l2 = l1
      end in
    match b with
    | [] => o = ONormal /\ g2 = g /\ l2 = l
    | SExpr e :: b => exists v g1 l1, eval opf C g l e v g1 l1 /\ execN n b g1 l1 o g2 l2
    | SDecl [] :: b => execN n b g l o g2 l2
    | SDecl ((x, i) :: ds) :: b =>
      exists v g1 l1 l3, evalO opf C g l i v g1 l1 /\ execN n (SDecl ds :: b) g1 ((x, v) :: l1) o g2 l3 /\ l2 = tl l3
    | SIf e s1 s2 :: b =>
      exists v g1 l1 o1 g3 l3, eval opf C g l e v g1 l1 /\ execN n [if Z.eqb v 0 then s2 else s1] g1 l1 o1 g3 l3 /\ next b o1 g3 l3
    | SLoop c i s :: b =>
      exists v g1 l1, eval opf C g l c v g1 l1 /\
        if Z.eqb v 0 then execN n b g1 l1 o g2 l2
        else exists o1 g3 l3, execN n [s] g1 l1 o1 g3 l3 /\ next (SExpr i :: SLoop c i s :: b) o1 g3 l3
    | SFor init c i s :: b => exists o1 g1 l1, execN n [init; SLoop c i s] g l o1 g1 l1 /\ next b o1 g1 l1
    | SBlock b1 lab :: b => exists o1 g1 l1, execN n b1 g l o1 g1 l1 /\ next b (catch lab o1) g1 l1
    | SReturn i :: _ => exists v, evalO opf C g l i v g2 l2 /\ o = OReturn v
    | SGoto x :: _ => o = OGoto x /\ g2 = g /\ l2 = l
    end
  end.
Definition callN (n f : nat) (a b : Z) (g : globals) (v : Z) (g2 : globals) : Prop :=
  match fn f with
  | None => ext f a b g = (v, g2)
  | Some F => exists o l2, execN n (fBody F) g (frame F a b) o g2 l2 /\ result o v
  end.
(** A call of a function may finish with a given result *)
Definition call (f : nat) (a b : Z) (g : globals) (v : Z) (g2 : globals) : Prop := exists n, callN n f a b g v g2.
End Stmt.

(** ** Correct programs and conditions *)
(** Switches: a call is not in the right operand of a comma operator; a call of a void function is a whole
    statement; there are no calls in groups of declarators *)
Record conds := Conds { xComma : bool; xVoid : bool; xGroup : bool }.
Section Wf.
Variable X : conds.
Variable fn : nat -> option func.
Variable enabled : nat -> bool.
(** A call which may be expanded *)
Definition mayInline (m : bool) (f : nat) : bool := m && enabled f && match fn f with Some _ => true | None => false end.
Fixpoint marked (e : expr) : bool :=
  match e with
  | EConst _ | EVar _ => false
  | EBin _ _ a b | ESeq _ a b => marked a || marked b
  | ECond c a b => marked c || marked a || marked b
  | EAssign _ a => marked a
  | ECall m f a b => mayInline m f || marked a || marked b
  end.
Fixpoint commaOk (e : expr) : bool :=
  match e with
  | EConst _ | EVar _ => true
  | EBin _ _ a b | ECall _ _ a b => commaOk a && commaOk b
  | ESeq k a b => commaOk a && commaOk b && (negb (isComma k) || negb (marked b))
  | ECond c a b => commaOk c && commaOk a && commaOk b
  | EAssign _ a => commaOk a
  end.
Definition isVoid (f : nat) : bool := match fn f with Some F => fVoid F | None => false end.
Fixpoint noVoid (e : expr) : bool :=
  match e with
  | EConst _ | EVar _ => true
  | EBin _ _ a b | ESeq _ a b => noVoid a && noVoid b
  | ECond c a b => noVoid c && noVoid a && noVoid b
  | EAssign _ a => noVoid a
  | ECall _ f a b => negb (isVoid f) && noVoid a && noVoid b
  end.
Definition wholeVoid (e : expr) : bool := match e with ECall _ _ a b => noVoid a && noVoid b | _ => noVoid e end.
Definition below (N : nat) (xs : list nat) : bool := forallb (fun x => x <? N) xs.
Definition okE (N : nat) (e : expr) : bool := below N (freeE e) && (negb (xComma X) || commaOk e).
Definition okV (N : nat) (e : expr) : bool := okE N e && (negb (xVoid X) || noVoid e).
Definition okDs (N : nat) (ds : list (nat * option expr)) : bool :=
  forallb (fun d => (fst d <? N) && match snd d with Some e => okV N e | None => true end) ds &&
  (negb (xGroup X) || (length ds <=? 1) || forallb (fun d => match snd d with Some e => negb (marked e) | None => true end) ds).
(** There are no labels in a source program, a return statement of a function which is not void has a value *)
Fixpoint okS (N : nat) (void : bool) (s : stmt) : bool :=
  match s with
  | SExpr e => okE N e && (negb (xVoid X) || wholeVoid e)
  | SDecl ds => okDs N ds
  | SIf e s1 s2 => okV N e && okS N void s1 && okS N void s2
  | SLoop c i s => okE N c && okE N i && okS N void s
  | SFor init c i s =>
    match init with SExpr e => okV N e | SDecl ds => okDs N ds | _ => false end && okE N c && okE N i && okS N void s
  | SBlock b l => match l with None => true | Some _ => false end && forallb (okS N void) b
  | SReturn (Some e) => negb void && okV N e
  | SReturn None => void
  | SGoto _ => false
  end.
Definition okF (N : nat) (F : func) : bool :=
  (fP F <? N) && (fQ F <? N) && negb (fP F =? fQ F) && forallb (okS N (fVoid F)) (fBody F) &&
  forallb (fun x => negb (x =? fP F) && negb (x =? fQ F)) (flat_map declaredS (fBody F)).
Definition wfProg (N : nat) : Prop := forall f F, fn f = Some F -> okF N F = true.
End Wf.

(** C72: each result of a function after inline expansion is a possible result of the original function, and no
    execution of it ends with a jump to a label which does not enclose the jump *)
Definition C72_claim (X : conds) : Prop :=
  forall opf ext fn enabled N depth, wfProg X fn enabled N ->
    let fn2 := transform fn enabled depth N in
    (forall f a b g v g2, call opf ext fn2 f a b g v g2 -> call opf ext fn f a b g v g2) /\
    (forall f F n a b g x g2 l2, fn2 f = Some F -> ~ execN opf ext fn2 n (fBody F) g (frame F a b) (OGoto x) g2 l2).
