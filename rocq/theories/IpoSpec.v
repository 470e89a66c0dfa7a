(** Specification of the choice for interprocedural optimization of data transfer. *)
From Coq Require Import PeanoNat Bool List.
From Verif Require Import IpoModel.
Import ListNotations.

Definition hasInstr (P : list func) (f : nat) (i : instr) : Prop := exists x, nth_error P f = Some x /\ In i (fBody x).
Definition captures (P : list func) (c k : nat) : Prop :=
  forall y, nth_error P c = Some y -> nth_error (fNoCapture y) k <> Some true.

(** Which objects of a function may hold the address of a global variable, and whether the address
    may be stored in memory. [inits]: addresses of these variables are used in initializers. *)
Inductive holds (P : list func) (inits : list nat) : nat -> obj -> nat -> Prop :=
  | HGlob f g : holds P inits f (OGlob g) g
  | HExpr f g : holds P inits f (OExpr g) g
  | HOther f os t o g : hasInstr P f (IOther os t) -> In o os -> holds P inits f o g -> holds P inits f (ORes t) g
  | HArg f c args t k o g : hasInstr P f (ICall (Some c) args t) -> nth_error args k = Some o ->
      holds P inits f o g -> holds P inits c (OArg k) g
  | HLoad f p t g : hasInstr P f (ILoad p t) -> stored P inits g -> holds P inits f (ORes t) g
  | HCall f c args t g : hasInstr P f (ICall c args t) -> stored P inits g -> holds P inits f (ORes t) g
with stored (P : list func) (inits : list nat) : nat -> Prop :=
  | SInit g : In g inits -> stored P inits g
  | SStore f v p g : hasInstr P f (IStore v p) -> holds P inits f v g -> stored P inits g
  | SRet f o g : hasInstr P f (IRet o) -> holds P inits f o g -> stored P inits g
  | SCall f c args t k o g : hasInstr P f (ICall (Some c) args t) -> nth_error args k = Some o -> captures P c k ->
      holds P inits f o g -> stored P inits g
  | SIndirect f args t k o g : hasInstr P f (ICall None args t) -> nth_error args k = Some o ->
      holds P inits f o g -> stored P inits g.
(** Objects computed from a formal parameter. *)
Inductive derived (P : list func) (f k : nat) : obj -> Prop :=
  | DArg : derived P f k (OArg k)
  | DOther os t o : hasInstr P f (IOther os t) -> In o os -> derived P f k o -> derived P f k (ORes t).
(** Attributes are correct. *)
Definition attributesOk (P : list func) : Prop :=
  forall f k o, ~ captures P f k -> derived P f k o ->
    (forall p, ~ hasInstr P f (IStore o p)) /\ ~ hasInstr P f (IRet o).
(** A pointer which is used to access memory. *)
Definition accessed (P : list func) (f : nat) (o : obj) : Prop :=
  (exists t, hasInstr P f (ILoad o t)) \/ (exists v, hasInstr P f (IStore v o)) \/
  (exists c args t, hasInstr P f (ICall c args t) /\ In o args).
(** [order] contains all functions except library ones, library functions have no bodies. *)
Definition orderOk (P : list func) (order : list nat) : Prop :=
  forall f x, nth_error P f = Some x -> if fLib x then fBody x = [] else In f order.
Definition analyzed (x : func) : Prop := fDecl x = false -> fParallel x = false /\ snd (needToOptimize x) = true.

(** If interprocedural optimization is enabled for a function and for a variable in it then the
    function accesses the variable by its name only.
    [gServer]: functions of a client and of a server are the same; [gChain]: pointers computed from
    formal parameters are not passed to other functions; [gInit]: addresses are not used in
    initializers; [gAll]: all functions are inside optimization regions and outside parallel loops;
    [gExpr]: there are no constant expressions with addresses. *)
Definition C85_named_claim (gServer gChain gInit gAll gExpr : bool) : Prop :=
  forall P server noExternal inits order acts gets f ign g o,
    orderOk P order -> attributesOk P ->
    (gServer = true -> forall c, server c = c) ->
    (gChain = true -> forall f k o c args t, derived P f k o -> hasInstr P f (ICall c args t) -> ~ In o args) ->
    (gInit = true -> inits = []) ->
    (gAll = true -> forall f x, nth_error P f = Some x -> analyzed x) ->
    (gExpr = true -> forall f i g, hasInstr P f i ->
       match i with
       | ILoad p _ => p <> OExpr g | IStore v p => v <> OExpr g /\ p <> OExpr g | ICall _ args _ => ~ In (OExpr g) args
       | ICast o => o <> OExpr g | IRet o => o <> OExpr g | IOther os _ => ~ In (OExpr g) os end) ->
    let s := initializeIPO P server noExternal order acts gets in
    (In g (sAct s) \/ In g (sGet s)) -> find f (sMap s) = Some (true, ign) -> ~ In g ign ->
    accessed P f o -> holds P inits f o g -> o = OGlob g.

(** The optimization is not enabled for functions which may be called from unknown code. *)
Definition C85_enabled_claim : Prop :=
  forall P server noExternal order acts gets f x ign,
    nth_error P f = Some x -> find f (sMap (initializeIPO P server noExternal order acts gets)) = Some (true, ign) ->
    fDecl x = false /\ fParallel x = false /\ fTaken x = false /\ (noExternal = false -> fExternal x = false) /\
    (fStatus x <> [] -> In CSAlways (fStatus x) \/ In CSCondition (fStatus x)).

(** A use of a global variable which keeps its address private. *)
Definition harmless (P : list func) (g : nat) (i : instr) : Prop :=
  match i with
  | ILoad _ _ | ICast _ => True
  | IStore v _ => v <> OGlob g
  | ICall c args _ => forall k, nth_error args k = Some (OGlob g) -> exists c', c = Some c' /\ ~ captures P c' k
  | IRet o => o <> OGlob g
  | IOther os _ => ~ In (OGlob g) os
  end.
(** A variable is optimized if and only if all functions have bodies and each analyzed function uses
    the variable in a proper way. *)
Definition C85_exact_claim : Prop :=
  forall P server noExternal order acts gets g,
    (forall f, In f order -> exists x, nth_error P f = Some x) ->
    let s := initializeIPO P server noExternal order acts gets in
    let ok := forall f x, In f order -> nth_error P f = Some x ->
      fDecl x = false /\ (fParallel x = false -> snd (needToOptimize x) = true -> forall i, In i (fBody x) -> harmless P g i) in
    (In g (sAct s) <-> In g acts /\ ok) /\ (In g (sGet s) <-> In g gets /\ ok) /\
    (sValid s = true <-> forall f x, In f order -> nth_error P f = Some x -> fDecl x = false).
(** The optimization is enabled for other functions if addresses of variables are not passed to them. *)
Definition C85_complete_claim : Prop :=
  forall P server noExternal order acts gets f x,
    In f order -> nth_error P f = Some x -> fDecl x = false -> fParallel x = false -> fTaken x = false ->
    (noExternal = false -> fExternal x = false) ->
    (fStatus x = [] \/ In CSAlways (fStatus x) \/ In CSCondition (fStatus x)) ->
    (forall h c args t g, hasInstr P h (ICall (Some c) args t) -> In (OGlob g) args -> server c <> f) ->
    find f (sMap (initializeIPO P server noExternal order acts gets)) = Some (true, []).
