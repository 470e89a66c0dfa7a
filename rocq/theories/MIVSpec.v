(** Specification vocabulary for dependence tests on several loops. *)
From Coq Require Import ZArith Bool List Arith.
From Verif Require Import DepModel DepSpec MIVModel.
Import ListNotations.
Local Open Scope Z_scope.

Section S.
Context {Env : Type}.

(** Value of a subscript at the iteration vector [x]: start + sum of step * x. *)
Fixpoint recsValue (recs : list (loop * scev Env)) (e : Env) (x : loop -> Z) : Z :=
  match recs with
  | [] => 0
  | (L, step) :: recs => step e * x L + recsValue recs e x
  end.
Definition value (E : expr Env) (e : Env) (x : loop -> Z) : Z :=
  eStart _ E e + recsValue (eRecs _ E) e x.
(** Iteration [x] of the source and iteration [y] of the destination access the same
    element. *)
Definition conflict (e : Env) (Src Dst : expr Env) (x y : loop -> Z) : Prop :=
  value Src e x = value Dst e y.
(** Each loop occurs in a chain of recurrences at most once. *)
Definition chainOk (E : expr Env) : Prop := NoDup (map fst (eRecs _ E)).

(** Iteration vector within bounds of loops of the nest. *)
Definition inNest (UB : loop -> option (scev Env)) (e : Env) (nest : list loop) (x : loop -> Z)
    : Prop := forall L, In L nest -> inLoop (UB L) e (x L).

(** The loop with the given depth; depths start with 1, the innermost loop is the
    first in the list. *)
Definition atDepth (nest : list loop) (K : nat) (L : loop) : Prop :=
  (1 <= K)%nat /\ nth_error (rev nest) (K - 1) = Some L.
(** Directions admit the pair of iteration vectors at each common loop. *)
Definition admits (common : list loop) (dv : nat -> dirs) (x y : loop -> Z) : Prop :=
  forall K L, atDepth common K L -> dirAdmits (dv K) (x L) (y L).

(** Queries to the structure of expressions tell the truth. *)
Record soundQueries (Q : miv Env) : Prop := {
  sq_part : forall x c, seConstPart _ Q x = Some c -> forall e, (c | x e);
  sq_sum : forall x ops, seSum _ Q x = Some ops ->
    forall e, x e = fold_right (fun o s => o e + s) 0 ops
}.

(** A line constraint is a line: a coefficient is not zero. *)
Definition properLine (e : Env) (c : constr Env) : Prop :=
  match c with CLine _ a b _ => a e <> 0 \/ b e <> 0 | _ => True end.
End S.
