(** Specification of C99. *)
From Coq Require Import PeanoNat Bool List Permutation.
From Verif Require Import ConstReplModel.
Import ListNotations.

(** ** Executions *)
(** A scalar is an element of an array with the index 0. *)
Definition store := name -> nat -> nat.
Section Exec.
  Variable pval : name -> nat.
  Fixpoint eval (s : store) (e : expr) : nat :=
    match e with
    | Lit _ v => v
    | Par p => pval p
    | Var x => s x 0
    | Sum a b => eval s a + eval s b
    | Ref a i => s a (eval s i)
    end.
  Definition update (s : store) (x : name) (i v : nat) : store :=
    fun y j => if (y =? x) && (j =? i) then v else s y j.
  Fixpoint target (l : nat) (b : list (option nat * stmt)) : nat :=
    match b with
    | [] => 0
    | (Some l', _) :: r => if l =? l' then 0 else S (target l r)
    | (None, _) :: r => S (target l r)
    end.
  (** A step of an execution, a position after the last statement is the end. *)
  Definition step (b : list (option nat * stmt)) (c : nat * store) : nat * store :=
    match nth_error b (fst c) with
    | None => c
    | Some (_, Assign x e) => (S (fst c), update (snd c) x 0 (eval (snd c) e))
    | Some (_, Store a i e) => (S (fst c), update (snd c) a (eval (snd c) i) (eval (snd c) e))
    | Some (_, Jump e l) => (if eval (snd c) e =? 0 then S (fst c) else target l b, snd c)
    end.
  Fixpoint run (n : nat) (b : list (option nat * stmt)) (c : nat * store) : nat * store :=
    match n with 0 => c | S n' => run n' b (step b c) end.
End Exec.

(** ** A procedure *)
Record world := World { wExplicit : name -> bool; wPar : name -> bool; wKind : name -> nat; wValue : name -> nat;
                        wMk : const -> nat -> name; wSymbols : list name; wOrder : list const -> list const }.
(** Names with different suffixes are different, an order of a map is some order. *)
Definition valid (w : world) : Prop :=
  (forall c n n', wMk w c n = wMk w c n' -> n = n') /\ (forall l, Permutation (wOrder w l) l).
Definition apply (w : world) (fixed : bool) (p : proc) : option result :=
  transform (wExplicit w) (wPar w) (wKind w) (wMk w) (wSymbols w) (wOrder w) fixed p.

(** Names in a procedure. *)
Fixpoint names (e : expr) : list name :=
  match e with
  | Lit _ _ => [] | Par p => [p] | Var x => [x]
  | Sum a b => names a ++ names b
  | Ref a i => a :: names i
  end.
Definition namesStmt (s : stmt) : list name :=
  match s with Assign x e => x :: names e | Store a i e => a :: names i ++ names e | Jump e _ => names e end.
Definition namesProc (p : proc) : list name := flat_map names (pSpec p) ++ flat_map (fun ls => namesStmt (snd ls)) (pBody p).

(** Constants in subscripts of arrays with explicit shapes. *)
Inductive inSub (w : world) : bool -> expr -> Prop :=
| sub_lit : forall k v, inSub w true (Lit k v)
| sub_par : forall p, wPar w p = true -> inSub w true (Par p)
| sub_left : forall t a b, inSub w t a -> inSub w t (Sum a b)
| sub_right : forall t a b, inSub w t b -> inSub w t (Sum a b)
| sub_ref : forall t a i, inSub w (wExplicit w a) i -> inSub w t (Ref a i).
Definition subStmt (w : world) (s : stmt) : Prop :=
  match s with
  | Assign _ e | Jump e _ => inSub w false e
  | Store a i e => inSub w (wExplicit w a) i \/ inSub w false e
  end.

(** Named constants are not variables, named constants which are arrays are guarded below. *)
Fixpoint typedExpr (w : world) (ga : bool) (e : expr) : Prop :=
  match e with
  | Lit _ _ => True | Par _ => True | Var x => wPar w x = false
  | Sum a b => typedExpr w ga a /\ typedExpr w ga b
  | Ref a i => (ga = true -> wPar w a = false) /\ typedExpr w ga i
  end.
Definition typedStmt (w : world) (ga : bool) (s : stmt) : Prop :=
  match s with
  | Assign x e => wPar w x = false /\ typedExpr w ga e
  | Store a i e => wPar w a = false /\ typedExpr w ga i /\ typedExpr w ga e
  | Jump e _ => typedExpr w ga e
  end.
Definition typed (w : world) (ga : bool) (p : proc) : Prop :=
  (forall e, In e (pSpec p) -> typedExpr w ga e) /\ (forall l s, In (l, s) (pBody p) -> typedStmt w ga s).

(** New variables have different names which are not names of symbols, they are declared.
    The search for names terminates. *)
Definition C99_fresh_claim : Prop :=
  forall w fixed p, valid w ->
    exists r, apply w fixed p = Some r /\ NoDup (map fst (rDecls r))
      /\ forall x k, In (x, k) (rDecls r) -> ~ In x (wSymbols w).

(** The result is a correct program: there are no labels before declarations, new variables
    are not used in a specification part. Guards: no constants in a specification part, no label
    before the first statement in the free form, no arrays which are constants. *)
Definition C99_valid_claim (gs gl ga : bool) : Prop :=
  forall w fixed p r, valid w -> typed w ga p ->
    (gs = true -> forall e, In e (pSpec p) -> ~ inSub w false e) ->
    (gl = true -> fixed = true \/ forall l s b, pBody p = (l, s) :: b -> l = None) ->
    apply w fixed p = Some r ->
    rLabel r = None /\ rSpec r = pSpec p.

(** The result is executed as the original procedure. Guards: all names are known to a search
    (no inner scopes), no label before the first statement in the free form, no arrays which are
    constants. *)
Definition C99_same_claim (gb gl ga : bool) : Prop :=
  forall w fixed p r, valid w -> typed w ga p ->
    (gb = true -> forall x, In x (namesProc p) -> In x (wSymbols w)) ->
    (gl = true -> fixed = true \/ forall l s b, pBody p = (l, s) :: b -> l = None) ->
    apply w fixed p = Some r ->
    forall n s,
      let k := length (rDecls r) in
      let c := run (wValue w) n (pBody p) (0, s) in
      let c' := run (wValue w) (k + n) (rBody r) (0, s) in
      fst c' = k + fst c /\ forall x i, In x (wSymbols w) -> snd c' x i = snd c x i.

(** There are no constants in subscripts after a replacement. *)
Definition C99_replaced_claim : Prop :=
  forall w fixed p r, valid w -> pBody p <> [] ->
    apply w fixed p = Some r -> forall l s, In (l, s) (rBody r) -> ~ subStmt w s.
(** A procedure without such constants is not changed. *)
Definition C99_identity_claim (ga : bool) : Prop :=
  forall w fixed p, valid w -> typed w ga p -> (forall e, In e (pSpec p) -> ~ inSub w false e) ->
    (forall l s, In (l, s) (pBody p) -> ~ subStmt w s) ->
    apply w fixed p = Some (Result [] None (pSpec p) (pBody p)).

(** New variables are declared with kinds of constants which initialize them, all other names are
    original. *)
Definition kindOf (w : world) (e : expr) : option nat :=
  match e with Lit k _ => Some k | Par p => Some (wKind w p) | _ => None end.
Definition C99_declared_claim : Prop :=
  forall w fixed p r, valid w -> apply w fixed p = Some r ->
    (forall x k, In (x, k) (rDecls r) -> exists e, In (None, Assign x e) (rBody r) /\ kindOf w e = Some k)
    /\ (forall l s y, In (l, s) (rBody r) -> In y (namesStmt s) -> In y (namesProc p) \/ In y (map fst (rDecls r))).
