(** Model of replacement of constants in Fortran programs (C99):
    /repo/lib/Transform/Flang/ConstantReplacement.cpp.

    A procedure consists of a specification part (a list of expressions) and of a list of
    labelled statements. Texts of names are numbers. A reference to an array has a single
    subscript. Structured statements are represented with conditional jumps. A range of a
    constant in a text is an occurrence in a tree. *)
From Coq Require Import PeanoNat Bool List.
Import ListNotations.

Definition name := nat.
(** A kind and a value of a literal. *)
Inductive expr :=
| Lit (k v : nat) | Par (p : name) | Var (x : name) | Sum (a b : expr) | Ref (a : name) (i : expr).
Inductive stmt :=
| Assign (x : name) (e : expr) | Store (a : name) (i e : expr) | Jump (e : expr) (l : nat).
Inductive const := CLit (k v : nat) | CPar (p : name).
Definition constDec (a b : const) : {a = b} + {a <> b}.
Proof. decide equality; apply Nat.eq_dec. Defined.
Record proc := Proc { pSpec : list expr; pBody : list (option nat * stmt) }.
(** Declarations of new variables (a name and a kind) and a label before them. *)
Record result := Result { rDecls : list (name * nat); rLabel : option nat; rSpec : list expr; rBody : list (option nat * stmt) }.

Section Replace.
  (** Is a shape of an array explicit (187-188), is a name an integer named constant (118-122) and its kind. *)
  Variable explicit : name -> bool.
  Variable isPar : name -> bool.
  Variable parKind : name -> nat.
  (** 67-195: a flag is mNestedRefs.back().second. *)
  Fixpoint collect (top : bool) (e : expr) : list const :=
    match e with
    | Lit k v => if top then [CLit k v] else []
    | Par p => if top && isPar p then [CPar p] else []
    | Var x => if top && isPar x then [CPar x] else []
    | Sum a b => collect top a ++ collect top b
    | Ref a i => (if explicit a && isPar a then [CPar a] else []) ++ collect (explicit a) i
    end.
  (** The left side of an assignment is visited as a reference. *)
  Definition collectStmt (s : stmt) : list const :=
    match s with
    | Assign _ e => collect false e
    | Store a i e => collect false (Ref a i) ++ collect false e
    | Jump e _ => collect false e
    end.
  Definition collectProc (p : proc) : list const :=
    flat_map (collect false) (pSpec p) ++ flat_map (fun ls => collectStmt (snd ls)) (pBody p).

  (** 252-271: a name with a suffix; names of symbols and of replaced constants. *)
  Variable mk : const -> nat -> name.
  Fixpoint addSuffix (used : list name) (c : const) (count fuel : nat) : option name :=
    match fuel with
    | 0 => None
    | S n => if existsb (Nat.eqb (mk c count)) used then addSuffix used c (S count) n else Some (mk c count)
    end.
  Fixpoint newNames (used : list name) (cs : list const) : option (list (const * name)) :=
    match cs with
    | [] => Some []
    | c :: r =>
        match addSuffix used c 0 (S (length used)) with
        | None => None
        | Some x => match newNames (x :: used) r with Some m => Some ((c, x) :: m) | None => None end
        end
    end.
  Fixpoint lookup (m : list (const * name)) (c : const) (d : name) : name :=
    match m with [] => d | (c', x) :: r => if constDec c c' then x else lookup r c d end.

  (** 288-289. *)
  Fixpoint replace (m : list (const * name)) (top : bool) (e : expr) : expr :=
    match e with
    | Lit k v => if top then Var (lookup m (CLit k v) 0) else Lit k v
    | Par p => if top && isPar p then Var (lookup m (CPar p) p) else Par p
    | Var x => if top && isPar x then Var (lookup m (CPar x) x) else Var x
    | Sum a b => Sum (replace m top a) (replace m top b)
    | Ref a i => Ref (if explicit a && isPar a then lookup m (CPar a) a else a) (replace m (explicit a) i)
    end.
  Definition replaceStmt (m : list (const * name)) (s : stmt) : stmt :=
    match s with
    | Assign x e => Assign x (replace m false e)
    | Store a i e => Store (if explicit a && isPar a then lookup m (CPar a) a else a) (replace m (explicit a) i) (replace m false e)
    | Jump e l => Jump (replace m false e) l
    end.
  Definition constExpr (c : const) : expr := match c with CLit k v => Lit k v | CPar p => Par p end.
  Definition constKind (c : const) : nat := match c with CLit k _ => k | CPar p => parKind p end.
  (** 290-302: initializations in the order of a map. *)
  Definition inits (m : list (const * name)) : list (option nat * stmt) :=
    map (fun cx => (None, Assign (snd cx) (constExpr (fst cx)))) m.
  (** 231-241: a text is inserted after a label in the free form, before a label otherwise. *)
  Definition dropLabel (fixed : bool) (b : list (option nat * stmt)) : list (option nat * stmt) :=
    match b with (_, s) :: r => if fixed then b else (None, s) :: r | [] => [] end.
  Definition firstLabel (fixed : bool) (b : list (option nat * stmt)) : option nat :=
    match b with (l, _) :: _ => if fixed then None else l | [] => None end.
  (** Symbols of a scope, an order of elements in a map of constants. *)
  Variable symbols : list name.
  Variable order : list const -> list const.
  (** 196-311; a procedure without statements is not changed (226-230). None is an infinite loop. *)
  Definition transform (fixed : bool) (p : proc) : option result :=
    match order (nodup constDec (collectProc p)), pBody p with
    | [], _ | _, [] => Some (Result [] None (pSpec p) (pBody p))
    | cs, _ =>
        match newNames symbols cs with
        | None => None
        | Some m =>
            Some (Result (map (fun cx => (snd cx, constKind (fst cx))) m) (firstLabel fixed (pBody p))
                         (map (replace m false) (pSpec p))
                         (inits m ++ map (fun ls => (fst ls, replaceStmt m (snd ls))) (dropLabel fixed (pBody p))))
        end
    end.
End Replace.
