(** What the elimination of dead declarations has to preserve: the meaning of the small part of
    C.  An execution produces a trace of calls and accesses to volatile objects, a state of the
    world outside the function, values of external variables and a returned value.  A behaviour
    which is not defined by the language is [RUndef]; a loop which is not finished within a
    given number of iterations is [RFuel]. *)
From Coq Require Import List Bool Arith ZArith.
From Verif Require Import DeadDeclModel.
Import ListNotations.
Local Open Scope nat_scope.

Inductive val := VInt (z : Z) | VPtr (d : nat).
Inductive event := EvCall (f : nat) (args : list val) | EvRead (d : nat) | EvWrite (d : nat) (v : val).

Section Semantics.
(** a type of states of the world *)
Variable W : Type.
(** meaning of operators: a pointer is produced from a pointer only *)
Variable op : nat -> list val -> option val.
(** variables which are stored outside the function, volatile variables *)
Variable exts : list nat.
Variable vol : nat -> bool.
(** functions which are called: they obtain values of external variables and change external
    variables and variables which are given by pointers ([writes] contains numbers of such
    variables) *)
Variable ext : nat -> list val -> list (option val) -> W -> Z * list (nat * Z) * W.

Record state := mkSt { vars : nat -> option val; world : W; trace : list event }.
Definition setVar (d : nat) (v : option val) (s : state) : state :=
  mkSt (fun x => if Nat.eqb x d then v else vars s x) (world s) (trace s).
Definition emit (e : event) (s : state) : state := mkSt (vars s) (world s) (trace s ++ [e]).

Definition readVar (d : nat) (s : state) : option (state * val) :=
  match vars s d with
  | Some v => Some (if vol d then emit (EvRead d) s else s, v)
  | None => None
  end.
Definition writeVar (d : nat) (v : val) (s : state) : state :=
  let s := setVar d (Some v) s in if vol d then emit (EvWrite d v) s else s.

Definition targets (args : list val) : list nat := flat_map (fun v => match v with VPtr d => [d] | VInt _ => [] end) args ++ exts.
Definition doWrites (args : list val) (ws : list (nat * Z)) (s : state) : state :=
  fold_left (fun s w => match nth_error (targets args) (fst w) with Some d => setVar d (Some (VInt (snd w))) s | None => s end) ws s.

Fixpoint eval (e : expr) (s : state) {struct e} : option (state * val) :=
  let evalL := fix evalL (l : list expr) (s : state) : option (state * list val) :=
    match l with
    | [] => Some (s, [])
    | e :: l => match eval e s with
                | Some (s, v) => match evalL l s with Some (s, vs) => Some (s, v :: vs) | None => None end
                | None => None
                end
    end in
  (* an object which is designated by an expression *)
  let place := fun (l : expr) (s : state) =>
    match l with
    | ERef d => Some (s, d)
    | EDeref e => match eval e s with Some (s, VPtr d) => Some (s, d) | _ => None end
    | _ => None
    end in
  match e with
  | ELit z | EConst _ z => Some (s, VInt z)
  | ERef d => readVar d s
  | EAddr d => Some (s, VPtr d)
  | EDeref e => match eval e s with Some (s, VPtr d) => readVar d s | _ => None end
  | EOp o l => match evalL l s with
               | Some (s, vs) => match op o vs with Some v => Some (s, v) | None => None end
               | None => None
               end
  | EAssign _ l r =>
    match eval r s with
    | Some (s, v) => match place l s with Some (s, d) => Some (writeVar d v s, v) | None => None end
    | None => None
    end
  | ECompound o l r =>
    match eval r s with
    | Some (s, v) =>
      match place l s with
      | Some (s, d) =>
        match readVar d s with
        | Some (s, x) => match op o [x; v] with Some v => Some (writeVar d v s, v) | None => None end
        | None => None
        end
      | None => None
      end
    | None => None
    end
  | EInc o l =>
    match place l s with
    | Some (s, d) =>
      match readVar d s with
      | Some (s, x) => match op o [x] with Some v => Some (writeVar d v s, x) | None => None end
      | None => None
      end
    | None => None
    end
  | ECall f l =>
    match evalL l s with
    | Some (s, vs) =>
      let '(z, ws, w) := ext f vs (map (vars s) exts) (world s) in
      let s := doWrites vs ws s in
      Some (mkSt (vars s) w (trace s ++ [EvCall f vs]), VInt z)
    | None => None
    end
  end.

Inductive res := RUndef | RFuel | RNormal (s : state) | RBreak (s : state) | RRet (s : state) (v : option val).

Definition evalO (e : option expr) (s : state) : option (state * option val) :=
  match e with
  | Some e => match eval e s with Some (s, v) => Some (s, Some v) | None => None end
  | None => Some (s, None)
  end.
Definition execDecl (d : decl) (s : state) : option state :=
  match d with
  | DVar v =>
    match evalO (vSize v) s with
    | Some (s, _) =>
      match evalO (vInit v) s with
      | Some (s, x) => Some (if vExt v then s else setVar (vId v) x s)
      | None => None
      end
    | None => None
    end
  | _ => Some s
  end.
Fixpoint execDecls (ds : list decl) (s : state) : option state :=
  match ds with [] => Some s | d :: ds => match execDecl d s with Some s => execDecls ds s | None => None end end.
Definition isTrue (v : val) : bool := match v with VInt z => negb (Z.eqb z 0) | VPtr _ => true end.

Definition bindN (r : res) (k : state -> res) : res := match r with RNormal s => k s | r => r end.
Section Loop.
Variable cond : state -> option (state * val).
Variable body step : state -> res.
Fixpoint loop (n : nat) (s : state) : res :=
  match n with
  | 0 => RFuel
  | S n =>
    match cond s with
    | None => RUndef
    | Some (s, v) =>
      if isTrue v then
        match body s with
        | RNormal s => bindN (step s) (loop n)
        | RBreak s => RNormal s
        | r => r
        end
      else RNormal s
    end
  end.
End Loop.
Section Exec.
Variable n : nat.
Fixpoint exec (s : stmt) (st : state) {struct s} : res :=
  match s with
  | SExpr e => match eval e st with Some (st, _) => RNormal st | None => RUndef end
  | SDecl ds => match execDecls ds st with Some st => RNormal st | None => RUndef end
  | SBlock _ l => (fix execL (l : list stmt) (st : state) : res := match l with [] => RNormal st | s :: l => bindN (exec s st) (execL l) end) l st
  | SIf e s1 s2 => match eval e st with Some (st, v) => if isTrue v then exec s1 st else exec s2 st | None => RUndef end
  | SWhile e s => loop (eval e) (exec s) RNormal n st
  | SFor _ i c p b => bindN (exec i st) (loop (eval c) (exec b) (exec p) n)
  | SRet e => match evalO e st with Some (st, v) => RRet st v | None => RUndef end
  | SBreak => RBreak st
  | SNull => RNormal st
  end.
End Exec.

(** What can be observed outside a function *)
Definition sameState (s s' : state) : Prop :=
  world s = world s' /\ trace s = trace s' /\ map (vars s) exts = map (vars s') exts.
Definition sameRes (r r' : res) : Prop :=
  match r, r' with
  | RUndef, _ => True
  | RFuel, RFuel => True
  | RNormal s, RNormal s' => sameState s s'
  | RBreak s, RBreak s' => sameState s s'
  | RRet s v, RRet s' v' => sameState s s' /\ v = v'
  | _, _ => False
  end.
End Semantics.
Arguments mkSt {W}. Arguments vars {W}. Arguments world {W}. Arguments trace {W}.

(** Names which are declared and which are used in a function; a constant of an enumeration is
    a use of the enumeration *)
Fixpoint usedE (e : expr) : list nat :=
  match e with
  | ELit _ => []
  | ERef d | EAddr d => [d]
  | EConst t _ => [t]
  | EDeref e => usedE e
  | EOp _ l | ECall _ l => flat_map usedE l
  | EAssign _ l r | ECompound _ l r => usedE l ++ usedE r
  | EInc _ l => usedE l
  end.
Definition usedO (e : option expr) : list nat := match e with Some e => usedE e | None => [] end.
Definition usedD (d : decl) : list nat :=
  match d with DVar v => match vType v with Some t => [t] | None => [] end ++ usedO (vSize v) ++ usedO (vInit v) | _ => [] end.
Fixpoint usedS (s : stmt) : list nat :=
  match s with
  | SExpr e => usedE e
  | SDecl ds => flat_map usedD ds
  | SBlock _ l => flat_map usedS l
  | SIf e s1 s2 => usedE e ++ usedS s1 ++ usedS s2
  | SWhile e s => usedE e ++ usedS s
  | SFor _ i c p b => usedS i ++ usedE c ++ usedS p ++ usedS b
  | SRet e => usedO e
  | SBreak | SNull => []
  end.
Fixpoint declsS (s : stmt) : list decl :=
  match s with
  | SDecl ds => ds
  | SBlock _ l => flat_map declsS l
  | SIf _ s1 s2 => declsS s1 ++ declsS s2
  | SWhile _ s => declsS s
  | SFor _ i _ p b => declsS i ++ declsS p ++ declsS b
  | _ => []
  end.
(** Locations of assignments *)
Fixpoint assignsE (e : expr) : list nat :=
  match e with
  | ELit _ | ERef _ | EAddr _ | EConst _ _ => []
  | EDeref e => assignsE e
  | EOp _ l | ECall _ l => flat_map assignsE l
  | EAssign a l r => a :: assignsE l ++ assignsE r
  | ECompound _ l r => assignsE l ++ assignsE r
  | EInc _ l => assignsE l
  end.
Definition assignsO (e : option expr) : list nat := match e with Some e => assignsE e | None => [] end.
Definition assignsD (d : decl) : list nat := match d with DVar v => assignsO (vSize v) ++ assignsO (vInit v) | _ => [] end.
Fixpoint assignsS (s : stmt) : list nat :=
  match s with
  | SExpr e => assignsE e
  | SDecl ds => flat_map assignsD ds
  | SBlock _ l => flat_map assignsS l
  | SIf e s1 s2 => assignsE e ++ assignsS s1 ++ assignsS s2
  | SWhile e s => assignsE e ++ assignsS s
  | SFor _ i c p b => assignsS i ++ assignsE c ++ assignsS p ++ assignsS b
  | SRet e => assignsO e
  | SBreak | SNull => []
  end.
(** A name is not used before its declaration.  Items of a function in the order of the text *)
Inductive item := IDecl (d : nat) | IUse (d : nat).
Definition usesI (l : list nat) : list item := map IUse l.
Definition itemsD (d : decl) : list item := IDecl (declId d) :: usesI (usedD d).
Fixpoint items (s : stmt) : list item :=
  match s with
  | SExpr e => usesI (usedE e)
  | SDecl ds => flat_map itemsD ds
  | SBlock _ l => flat_map items l
  | SIf e s1 s2 => usesI (usedE e) ++ items s1 ++ items s2
  | SWhile e s => usesI (usedE e) ++ items s
  | SFor _ i c p b => items i ++ usesI (usedE c) ++ items p ++ items b
  | SRet e => usesI (usedO e)
  | SBreak | SNull => []
  end.
Definition declaredFirst (body : stmt) : Prop :=
  forall pre d post, items body = pre ++ IDecl d :: post -> ~ In (IUse d) pre.
(** names are different *)
Definition wellFormed (params : list nat) (body : stmt) : Prop :=
  NoDup (params ++ map declId (declsS body)) /\ NoDup (assignsS body) /\ declaredFirst body.

(** Conditions on declarations *)
Definition declared (body : stmt) (v : vdecl) : Prop := In (DVar v) (declsS body).
(** no extern declarations inside the function *)
Definition noExtern (body : stmt) : Prop := forall v, declared body v -> vExt v = false.
(** sizes of arrays contain no calls, assignments, increments and decrements *)
Fixpoint calm (e : expr) : bool :=
  match e with
  | ELit _ | ERef _ | EConst _ _ | EAddr _ => true
  | EDeref e => calm e
  | EOp _ l => forallb calm l
  | EAssign _ _ _ | ECompound _ _ _ | EInc _ _ | ECall _ _ => false
  end.
Definition calmSizes (body : stmt) : Prop := forall v e, declared body v -> vSize v = Some e -> calm e = true.
(** groups of declarations *)
Fixpoint declStmts (s : stmt) : list (list decl) :=
  match s with
  | SDecl ds => [ds]
  | SBlock _ l => flat_map declStmts l
  | SIf _ s1 s2 => declStmts s1 ++ declStmts s2
  | SWhile _ s => declStmts s
  | SFor _ i _ p b => declStmts i ++ declStmts p ++ declStmts b
  | _ => []
  end.
Definition opsOk (op : nat -> list val -> option val) : Prop := forall o vs d, op o vs = Some (VPtr d) -> In (VPtr d) vs.
(** Enumerations whose constants are used *)
Fixpoint constsE (e : expr) : list nat :=
  match e with
  | ELit _ | ERef _ | EAddr _ => []
  | EConst t _ => [t]
  | EDeref e => constsE e
  | EOp _ l | ECall _ l => flat_map constsE l
  | EAssign _ l r | ECompound _ l r => constsE l ++ constsE r
  | EInc _ l => constsE l
  end.
Definition constsO (e : option expr) : list nat := match e with Some e => constsE e | None => [] end.
Definition constsD (d : decl) : list nat := match d with DVar v => constsO (vSize v) ++ constsO (vInit v) | _ => [] end.
Fixpoint constsS (s : stmt) : list nat :=
  match s with
  | SExpr e => constsE e
  | SDecl ds => flat_map constsD ds
  | SBlock _ l => flat_map constsS l
  | SIf e s1 s2 => constsE e ++ constsS s1 ++ constsS s2
  | SWhile e s => constsE e ++ constsS s
  | SFor _ i c p b => constsS i ++ constsE c ++ constsS p ++ constsS b
  | SRet e => constsO e
  | SBreak | SNull => []
  end.
(** no local enumerations whose constants are used *)
Definition noLocalEnums (body : stmt) : Prop := forall t, In t (constsS body) -> ~ In t (map declId (declsS body)).
(** no macros *)
Fixpoint noMacros (s : stmt) : bool :=
  match s with
  | SBlock m l => negb m && forallb noMacros l
  | SIf _ s1 s2 => noMacros s1 && noMacros s2
  | SWhile _ s => noMacros s
  | SFor m i _ p b => negb m && noMacros i && noMacros p && noMacros b
  | _ => true
  end.
