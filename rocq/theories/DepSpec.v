(** Specification vocabulary for the dependence tests: what an answer of a
    test means.  Nothing here depends on how the tests work. *)
From Coq Require Import ZArith Bool List.
From Verif Require Import DepModel.
Open Scope Z_scope.

(** The queries to ScalarEvolution answer 'known' only if the fact holds in
    every environment; on constants the sign query is exact. *)
Record soundOracle {Env} (O : oracle Env) : Prop := {
  so_nonneg : forall x, seNonNeg _ O x = true -> forall e, 0 <= x e;
  so_nonpos : forall x, seNonPos _ O x = true -> forall e, x e <= 0;
  so_pos : forall x, sePos _ O x = true -> forall e, 0 < x e;
  so_neg : forall x, seNeg _ O x = true -> forall e, x e < 0;
  so_nonzero : forall x, seNonZero _ O x = true -> forall e, x e <> 0;
  so_pred : forall p x y, sePred _ O p x y = true -> forall e, cmpP p (x e) (y e);
  so_const : forall x c, seConst _ O x = Some c -> forall e, x e = c;
  so_const_neg : forall x c, seConst _ O x = Some c -> seNeg _ O x = (c <? 0)
}.

(** [i] is an iteration of a normalised loop with the given upper bound. *)
Definition inLoop {Env} (UB : option (scev Env)) (e : Env) (i : Z) : Prop :=
  0 <= i /\ match UB with Some U => i <= U e | None => True end.
(** The same for a constant bound. *)
Definition inLoopC (UM : option Z) (i : Z) : Prop :=
  0 <= i /\ match UM with Some u => i <= u | None => True end.

(** The direction set admits the pair (source iteration, destination iteration). *)
Definition dirAdmits (d : dirs) (i i' : Z) : Prop :=
  (i < i' -> dLT d = true) /\ (i = i' -> dEQ d = true) /\ (i > i' -> dGT d = true).

(** A recorded distance is the difference of the conflicting iterations. *)
Definition distOk {Env} (dv : dventry Env) (e : Env) (i i' : Z) : Prop :=
  forall D, dvDist _ dv = Some D -> D e = i' - i.

(** The pair of iterations satisfies the constraint. *)
Definition constrHolds {Env} (e : Env) (c : constr Env) (i i' : Z) : Prop :=
  match c with
  | CEmpty _ => False
  | CPoint _ x y => i = x e /\ i' = y e
  | CDistance _ c => i - i' = c e
  | CLine _ a b c => a e * i + b e * i' = c e
  | CAny _ => True
  end.

(** The result [r] of a test, started with the direction-vector entry [dv], is
    right about the conflicting pair (i, i') in the environment [e]. *)
Record answerOk {Env} (dv : dventry Env) (r : tres Env) (e : Env) (i i' : Z) : Prop := {
  ok_dep : tIndep _ r = false;
  ok_dir : dirAdmits (dvDir _ (tDV _ r)) i i';
  ok_dist : distOk dv e i i' -> distOk (tDV _ r) e i i';
  ok_constr : forall c, tConstr _ r = Some c -> constrHolds e c i i'
}.
