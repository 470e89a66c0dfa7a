(** What symbolic expressions mean.  Nothing here refers to the functions which divide
    expressions.

    The value of an expression is an integer; values are compared modulo [M].  If M = 0
    the values are equal as integers; if M = 2^w they are equal as machine words.  A
    value of a recurrence at iteration i is the sum of its operands multiplied by
    binomial coefficients C(i, k). *)
From Coq Require Import ZArith List Bool.
From Verif Require Import SCEVModel.
Import ListNotations.
Local Open Scope Z_scope.

Definition cong (M a b : Z) : Prop := (M | a - b).

Fixpoint binom (n k : nat) : Z :=
  match n, k with
  | _, O => 1
  | O, S _ => 0
  | S n, S k' => binom n k' + binom n k
  end.
Fixpoint chrecFrom (k : nat) (l : list Z) (i : nat) : Z :=
  match l with
  | [] => 0
  | a :: l => a * binom i k + chrecFrom (S k) l i
  end.
Definition sum (l : list Z) : Z := fold_right Z.add 0 l.
Definition prod (l : list Z) : Z := fold_right Z.mul 1 l.

(** values of variables and numbers of iterations of loops *)
Record env := mkEnv { vars : nat -> Z; iter : nat -> nat }.
(** meaning of casts and of other operations *)
Record interp := mkI { iCast : castKind -> nat -> Z -> Z; iOpq : nat -> list Z -> Z }.

Section V.
Variable I : interp.
Fixpoint ev (e : env) (s : sc) {struct s} : Z :=
  match s with
  | Cst _ z => z
  | Unk v => vars e v
  | Add l => sum (map (fun x => ev e x) l)
  | Mul l => prod (map (fun x => ev e x) l)
  | Rec l L => chrecFrom 0 (map (fun x => ev e x) l) (iter e L)
  | Cast k t x => iCast I k t (ev e x)
  | Opq k l => iOpq I k (map (fun x => ev e x) l)
  | CNC => 0
  end.

(** What is required from ScalarEvolution: it builds expressions with correct values. *)
Record sound (M : Z) (E : SE) : Prop := mkSound {
  soundAdd : forall e l, cong M (ev e (seAdd E l)) (sum (map (ev e) l));
  soundMul : forall e l, cong M (ev e (seMul E l)) (prod (map (ev e) l));
  soundRec : forall e l L, cong M (ev e (seRec E l L)) (chrecFrom 0 (map (ev e) l) (iter e L));
  soundMinus : forall e a b, cong M (ev e (seMinus E a b)) (ev e a - ev e b)
}.
End V.

(** [sub a b]: a is a part of b *)
Inductive sub : sc -> sc -> Prop :=
| sub_refl : forall a, sub a a
| sub_add : forall a x l, In x l -> sub a x -> sub a (Add l)
| sub_mul : forall a x l, In x l -> sub a x -> sub a (Mul l)
| sub_rec : forall a x l L, In x l -> sub a x -> sub a (Rec l L)
| sub_cast : forall a k t x, sub a x -> sub a (Cast k t x)
| sub_opq : forall a k x l, In x l -> sub a x -> sub a (Opq k l).
(** all recurrences are a + b * i *)
Definition affine (s : sc) : Prop := forall l L, sub (Rec l L) s -> length l = 2%nat.
(** a variable does not occur *)
Definition freeOf (v : nat) (s : sc) : Prop := ~ sub (Unk v) s.

(** Expressions which are sums, recurrences and products, such that a variable is a
    factor of each product it occurs in.  [i*n + j*n + k], [{0,+,n}], [n * (j + k)]; but
    not [(n + 1) * k]. *)
Inductive factored (v : nat) : sc -> Prop :=
| f_cst : forall t z, factored v (Cst t z)
| f_unk : forall w, factored v (Unk w)
| f_add : forall l, Forall (factored v) l -> factored v (Add l)
| f_rec : forall l L, Forall (factored v) l -> factored v (Rec l L)
| f_mul : forall l, Forall (factored v) l -> In (Unk v) l \/ Forall (freeOf v) l -> factored v (Mul l)
| f_cast : forall k t x, factored v (Cast k t x)
| f_opq : forall k l, factored v (Opq k l)
| f_cnc : factored v CNC.
(** What ScalarEvolution does without any simplification: nothing is replaced if there is
    nothing to replace, x - x is zero and a constant is not larger than a product. *)
Record canonical (E : SE) : Prop := mkCanonical {
  canRewrite : forall x v c, freeOf v x -> rewrite_ E x v c = x;
  canMinus : forall x, seMinus E x x = Cst (ty E x) 0;
  canSize : forall t z l, sizeOf E (Cst t z) <= sizeOf E (Mul l)
}.
