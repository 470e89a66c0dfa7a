(** Executions of a function with memory, pointers derived from the argument are tainted
    (C56).  Instructions are executed in any order and any number of times: so, each control
    flow is covered. *)
From Coq Require Import ZArith List Bool.
From Verif Require Import CaptureModel.
Import ListNotations.
Local Open Scope Z_scope.

(** A pointer: an object, an offset, is it derived from the argument. *)
Inductive val := VInt | VPtr (o : nat) (off : Z) (taint : bool).
(** Objects: not allocated, existed before the call or is allocated by other functions,
    allocated by an instruction of the function itself *)
Inductive status := Unused | Outside | Local (site : nat).
Record mstate := mkM { env : nat -> val; mem : nat -> Z -> val; stat : nat -> status }.
Definition setEnv (s : mstate) (d : nat) (v : val) : mstate :=
  mkM (fun x => if Nat.eqb d x then v else env s x) (mem s) (stat s).
Definition setMem (s : mstate) (o : nat) (off : Z) (v : val) : mstate :=
  mkM (env s) (fun o' off' => if Nat.eqb o o' && (off =? off') then v else mem s o' off') (stat s).
(** a new object with given contents, d points to it *)
Definition alloc (s : mstate) (d o : nat) (c : Z -> val) : mstate :=
  mkM (fun x => if Nat.eqb d x then VPtr o 0 false else env s x)
      (fun o' off => if Nat.eqb o o' then c off else mem s o' off)
      (fun o' => if Nat.eqb o o' then Local d else stat s o').

(** An object which is known outside of the function. *)
Inductive exposed (s : mstate) : nat -> Prop :=
| ex_outside o : stat s o = Outside -> exposed s o
| ex_ptr o off o' off' t : exposed s o -> mem s o off = VPtr o' off' t -> exposed s o'.
(** A value which may be produced by other functions. *)
Definition foreign (s : mstate) (v : val) : Prop :=
  v = VInt \/ exists o off, v = VPtr o off false /\ exposed s o.

(** A callee may keep a copy of its k-th argument: it is not known, it has a variable number
    of arguments and it is not a library function, or the parameter is not nocapture. *)
Definition mayKeep (A : attributes) (c : option nat) (k : nat) : Prop :=
  match c with
  | None => True
  | Some g => if aVarArg A g then aLib A g = false else aNoCapture A g k = false
  end.

Section F.
Variable F : func.
Variable A : attributes.
(** Which callees return a pointer derived from their k-th argument. *)
Variable returns : nat -> nat -> bool.
(** Do allocating functions return objects without pointers in them? *)
Variable newEmpty : bool.
(** A callee does not get pointers to memory of the function itself. *)
Definition callGuard (s : mstate) (args : list nat) : Prop :=
  forall x o off t, In x args -> env s x = VPtr o off t -> forall site, stat s o <> Local site.
(** A callee changes what is known to it. *)
Definition callEffect (s s' : mstate) : Prop :=
  env s' = env s /\ stat s' = stat s /\
  forall o off, mem s' o off = mem s o off \/ (exposed s o /\ foreign s (mem s' o off)).
Inductive step (s : mstate) : mstate -> Prop :=
| s_store i v p o off t : fInstr F i = Some (IStore v p) -> env s p = VPtr o off t -> step s (setMem s o off (env s v))
| s_load i p o off t : fInstr F i = Some (ILoad p) -> env s p = VPtr o off t -> step s (setEnv s i (mem s o off))
| s_gep i b is o off t off' : fInstr F i = Some (IGep b is) -> env s b = VPtr o off t -> step s (setEnv s i (VPtr o off' t))
| s_bitcast i x : fInstr F i = Some (IBitCast x) -> step s (setEnv s i (env s x))
| s_alloca i o : fInstr F i = Some IAlloca -> stat s o = Unused -> step s (alloc s i o (fun _ => VInt))
| s_other i ops v : fInstr F i = Some (IOther ops) -> v = VInt \/ (exists x, In x ops /\ v = env s x) -> step s (setEnv s i v)
| s_call_indirect i args s' v : fInstr F i = Some (ICall None args) -> callGuard s args -> callEffect s s' ->
    foreign s v -> step s (setEnv s' i v)
| s_call i g args s' v : fInstr F i = Some (ICall (Some g) args) -> callGuard s args -> callEffect s s' ->
    v = VInt \/ (foreign s v /\ aNoAlias A g = false) -> step s (setEnv s' i v)
| s_call_returned i g args s' k x o off t off' : fInstr F i = Some (ICall (Some g) args) -> callGuard s args -> callEffect s s' ->
    aNoAlias A g = false -> returns g k = true -> nth_error args k = Some x -> env s x = VPtr o off t ->
    step s (setEnv s' i (VPtr o off' t))
| s_call_new i g args s' o c : fInstr F i = Some (ICall (Some g) args) -> callGuard s args -> callEffect s s' ->
    aNoAlias A g = true -> stat s o = Unused ->
    (forall off, c off = VInt \/ (newEmpty = false /\ foreign s (c off))) ->
    step s (alloc s' i o c).
Inductive steps (s : mstate) : mstate -> Prop :=
| st_nil : steps s s
| st_cons s' s'' : steps s s' -> step s' s'' -> steps s s''.

(** A copy of the argument can be found, starting from the value. *)
Inductive leadsToTaint (s : mstate) : val -> Prop :=
| l_taint o off : leadsToTaint s (VPtr o off true)
| l_mem o off off' t : leadsToTaint s (mem s o off') -> leadsToTaint s (VPtr o off t).
(** The instruction makes a copy of the argument visible outside: it stores it, or a
    pointer to memory with a copy of it, in memory of others; it passes it to a callee, which may
    keep a copy; it is used in an unknown way (for example, it is returned). *)
Inductive captures (s : mstate) : Prop :=
| c_store i v p o off t : fInstr F i = Some (IStore v p) -> leadsToTaint s (env s v) ->
    env s p = VPtr o off t -> exposed s o -> captures s
| c_call i c args k x : fInstr F i = Some (ICall c args) -> nth_error args k = Some x -> leadsToTaint s (env s x) ->
    mayKeep A c k -> captures s
| c_other i ops x : fInstr F i = Some (IOther ops) -> In x ops -> leadsToTaint s (env s x) -> captures s.

(** The beginning of a call: arguments, global variables and constants point to existing
    objects, there are no copies of the argument. *)
Definition initial (Arg : nat) (s : mstate) : Prop :=
  (forall o, stat s o = Unused \/ stat s o = Outside) /\
  (forall x, env s x = VInt \/ exists o off, env s x = VPtr o off (Nat.eqb x Arg) /\ stat s o = Outside) /\
  (forall x ins, fInstr F x = Some ins -> env s x = VInt) /\
  (forall o off, mem s o off = VInt \/ exists o' off', mem s o off = VPtr o' off' false /\ stat s o' = Outside).
(** Lists of uses are right. *)
Definition usesRight : Prop :=
  forall v i k, In (i, k) (fUses F v) <-> exists ins, fInstr F i = Some ins /\ nth_error (operands ins) k = Some v.
(** A callee may keep copies of all its arguments or of none of them. *)
Definition uniformCalls : Prop :=
  forall i c args k l, fInstr F i = Some (ICall c args) -> (k < length args)%nat -> (l < length args)%nat ->
  mayKeep A c k -> mayKeep A c l.
(** An argument which is returned is kept: this is the meaning of nocapture. *)
Definition returnedIsKept : Prop := forall g k, returns g k = true -> mayKeep A (Some g) k.
(** A finite function: all values which are related to values from the list are in the list. *)
Definition finiteValues (vals : list nat) : Prop :=
  forall v, In v vals ->
  (forall ins x, fInstr F v = Some ins -> In x (operands ins) -> In x vals) /\
  (forall i k, In (i, k) (fUses F v) -> In i vals).
End F.
