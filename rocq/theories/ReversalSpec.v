(** The meaning of for-loops. *)
From Coq Require Import ZArith List Bool Arith.
From Verif Require Import ReversalModel.
Import ListNotations.
Local Open Scope Z_scope.

(** Arithmetic of a type: a value is represented or the behaviour is undefined. *)
Definition arith := Z -> option Z.
Definition signedN (w : Z) : arith := fun z => if (- 2 ^ (w - 1) <=? z) && (z <? 2 ^ (w - 1)) then Some z else None.
Definition unsignedN (w : Z) : arith := fun z => Some (z mod 2 ^ w).

Definition b2z (b : bool) : Z := if b then 1 else 0.
Definition evalOp (fit : arith) (o : op) (a b : Z) : option Z :=
  match o with
  | OMul => fit (a * b)
  | ODiv => if b =? 0 then None else fit (Z.quot a b)
  | OAdd => fit (a + b)
  | OSub => fit (a - b)
  | OShl => if b <? 0 then None else fit (a * 2 ^ b)
  | OLt => Some (b2z (a <? b)) | OGt => Some (b2z (b <? a))
  | OLe => Some (b2z (a <=? b)) | OGe => Some (b2z (b <=? a))
  | OEq => Some (b2z (a =? b))
  | OOr => fit (Z.lor a b)
  end.
(** values of variables do not change in a loop; [i] is the induction variable *)
Fixpoint eval (fit : arith) (vars : nat -> Z) (i : Z) (e : expr) : option Z :=
  match e with
  | ENum z => fit z
  | EVar v => fit (vars v)
  | EInd => Some i
  | EBin o a b =>
    match eval fit vars i a, eval fit vars i b with
    | Some x, Some y => evalOp fit o x y
    | _, _ => None
    end
  | EPar e => eval fit vars i e
  | ENeg e => match eval fit vars i e with Some x => fit (- x) | None => None end
  end.
Definition evalIncr (fit : arith) (vars : nat -> Z) (i : Z) (c : incr) : option Z :=
  match c with
  | IUnary up => fit (if up then i + 1 else i - 1)
  | IAssignOp sub e => match eval fit vars i e with Some s => fit (if sub then i - s else i + s) | None => None end
  | ISetAdd e => eval fit vars i (EBin OAdd EInd e)
  | ISetAddRev e => eval fit vars i (EBin OAdd e EInd)
  | ISetSub e => eval fit vars i (EBin OSub EInd e)
  end.

(** Execution: values of the induction variable in iterations and its value after the
    loop. *)
Inductive outcome := Done (visited : list Z) (final : Z) | UB | NotYet.
Fixpoint iterate (fuel : nat) (fit : arith) (vars : nat -> Z) (l : forLoop) (i : Z) : outcome :=
  match fuel with
  | O => NotYet
  | S fuel =>
    match eval fit vars i (fCond l) with
    | None => UB
    | Some c =>
      if c =? 0 then Done [] i
      else match evalIncr fit vars i (fInc l) with
           | None => UB
           | Some i' => match iterate fuel fit vars l i' with
                        | Done vs f => Done (i :: vs) f
                        | o => o
                        end
           end
    end
  end.
(** [old]: the value before the loop *)
Definition run (fuel : nat) (fit : arith) (vars : nat -> Z) (old : Z) (l : forLoop) : outcome :=
  match eval fit vars old (fInit l) with
  | None => UB
  | Some i => iterate fuel fit vars l i
  end.

(** An expression does not use the induction variable. *)
Fixpoint noInd (e : expr) : Prop :=
  match e with
  | EInd => False
  | EBin _ a b => noInd a /\ noInd b
  | EPar e | ENeg e => noInd e
  | _ => True
  end.
(** An expression is a sum, a product or is in parentheses. *)
Definition tight (e : expr) : Prop := match e with EBin o _ _ => (9 <= prec o)%nat | _ => True end.

(** The step of a loop. *)
Definition stepOf (fit : arith) (vars : nat -> Z) (i : incr) : option Z :=
  match i with
  | IUnary up => Some (if up then 1 else -1)
  | IAssignOp sub e => match eval fit vars 0 e with Some s => Some (if sub then - s else s) | None => None end
  | ISetAdd e | ISetAddRev e => eval fit vars 0 e
  | ISetSub e => match eval fit vars 0 e with Some s => Some (- s) | None => None end
  end.
(** Does the condition bound the variable from above? *)
Definition upward (c : canonLoop) : bool :=
  match cOp c with OLt | OLe => negb (cRevCond c) | _ => cRevCond c end.
(** Is the step added to the variable (or is it subtracted)? *)
Definition additive (i : incr) : bool :=
  match i with IUnary up => up | IAssignOp sub _ => negb sub | ISetAdd _ | ISetAddRev _ => true | ISetSub _ => false end.
(** The text of the step, it is absent in ++ and --. *)
Definition stepText (i : incr) : option expr :=
  match i with IUnary _ => None | IAssignOp _ e | ISetAdd e | ISetAddRev e | ISetSub e => Some e end.
Definition isComparison (o : op) : Prop := match o with OLt | OLe | OGt | OGe => True | _ => False end.
Definition strictCond (o : op) : bool := match o with OLt | OGt => true | _ => false end.

(** Execution of iterations in a given order; [body i] is the effect of an iteration. *)
Definition execute {S} (body : Z -> S -> S) (vs : list Z) (s : S) : S := fold_left (fun s i => body i s) vs s.
