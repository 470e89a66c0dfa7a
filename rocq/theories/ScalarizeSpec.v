(** Executions of a loop before and after the promotion (C57). *)
From Coq Require Import ZArith List Bool.
From Verif Require Import ScalarizeModel.
Import ListNotations.
Local Open Scope Z_scope.

(** What instructions and branches do.  Memory except the promoted location is of any type. *)
Record sem := mkSem {
  Mem : Type;
  (** a function, the previous block, registers, memory *)
  opSem : nat -> nat -> (nat -> Z) -> Mem -> Z * Mem;
  (** the next block *)
  branch : nat -> (nat -> Z) -> Mem -> nat }.

Section S.
Variable C : cfg.
Variable M : sem.
(** ** The original loop *)
(** registers, other memory, the promoted location *)
Definition state := ((nat -> Z) * Mem M * Z)%type.
Definition evalO (env : nat -> Z) (o : operand) : Z := match o with OReg x => env x | OConst c => c end.
Definition exec1 (prev : nat) (s : state) (i : instr) : state :=
  let '(env, m, v) := s in
  match i with
  | IStore o => (env, m, evalO env o)
  | ILoad d => (upd env d v, m, v)
  | IOther d f => let r := opSem M f prev env m in (upd env d (fst r), snd r, v)
  end.
Definition accesses (l : list instr) : bool := existsb (fun i => match i with IOther _ _ => false | _ => true end) l.
Inductive outcome := Exit (e : nat) (env : nat -> Z) (m : Mem M) (v : Z) | Trap | Running | Stuck.
(** [valid]: may the promoted location be accessed?  The location is accessed in the block b
    entered from the block prev. *)
Fixpoint run (valid : bool) (n : nat) (prev b : nat) (s : state) : outcome :=
  match n with
  | O => Running
  | S n =>
    if inL C b then
      if accesses (body C b) && negb valid then Trap
      else let s := fold_left (exec1 prev) (body C b) s in
           run valid n b (branch M b (fst (fst s)) (snd (fst s))) s
    else Exit b (fst (fst s)) (snd (fst s)) (snd s)
  end.
(** ** The transformed loop *)
(** registers, other memory, phi nodes, the value loaded in the preheader *)
Record tstate := mkTS { tEnv : nat -> Z; tMem : Mem M; tPh : nat -> Z; tL : Z }.
Definition evalL (s : tstate) (v : lval) : option Z :=
  match v with
  | LPhi b => Some (tPh s b)
  | LReg x => Some (tEnv s x)
  | LConst c => Some c
  | LLoad => Some (tL s)
  | LNull => None
  end.
Definition texec1 (prev : nat) (s : option tstate) (i : tinstr) : option tstate :=
  match s with
  | None => None
  | Some s =>
    match i with
    | TCopy d v => match evalL s v with Some z => Some (mkTS (upd (tEnv s) d z) (tMem s) (tPh s) (tL s)) | None => None end
    | TOther d f => let r := opSem M f prev (tEnv s) (tMem s) in Some (mkTS (upd (tEnv s) d (fst r)) (snd r) (tPh s) (tL s))
    end
  end.
(** the value for the given predecessor *)
Definition select (inc : list (nat * lval)) (p : nat) : option lval :=
  match find (fun e => Nat.eqb (fst e) p) inc with Some e => Some (snd e) | None => None end.
Definition enter (P : tprog) (prev b : nat) (s : tstate) : option tstate :=
  match tPhi P b with
  | None => Some s
  | Some inc =>
    match select inc prev with
    | None => None
    | Some v => match evalL s v with Some z => Some (mkTS (tEnv s) (tMem s) (upd (tPh s) b z) (tL s)) | None => None end
    end
  end.
(** the result has the value which is stored in the exit block *)
Fixpoint trun (P : tprog) (n : nat) (prev b : nat) (s : tstate) : outcome :=
  match n with
  | O => Running
  | S n =>
    if inL C b then
      match enter P prev b s with
      | None => Stuck
      | Some s =>
        match fold_left (texec1 prev) (tBody P b) (Some s) with
        | None => Stuck
        | Some s => trun P n b (branch M b (tEnv s) (tMem s)) s
        end
      end
    else match evalL s (tStore P b) with
         | None => Stuck
         | Some v => Exit b (tEnv s) (tMem s) v
         end
  end.
(** from the preheader: the location is loaded at first *)
Definition runLoop (valid : bool) (n : nat) (s : state) : outcome := run valid n (preheader C) (header C) s.
Definition trunLoop (P : tprog) (valid : bool) (n : nat) (s : state) : outcome :=
  let '(env, m, v) := s in
  if valid then trun P n (preheader C) (header C) (mkTS env m (fun _ => 0) v) else Trap.
(** branches follow edges *)
Definition branchRight : Prop := forall b env m, inL C b = true -> In (branch M b env m) (succs C b).
End S.

Section W.
Variable C : cfg.
(** A path in the loop from the preheader to a block. *)
Inductive path : list nat -> nat -> Prop :=
| p_pre : path [preheader C] (preheader C)
| p_step p b c : path p b -> In c (succs C b) -> inL C c = true -> path (p ++ [c]) c.
(** A natural loop with a preheader, exits are not its preheader. *)
Record loopShape : Prop := mkShape {
  sh_pre : inL C (preheader C) = false;
  sh_header : inL C (header C) = true;
  sh_pre_succ : succs C (preheader C) = [header C];
  sh_preds : forall a b, inL C b = true -> (In a (preds C b) <-> In b (succs C a));
  sh_entry : forall a b, inL C b = true -> In b (succs C a) -> inL C a = true \/ (a = preheader C /\ b = header C);
  sh_exit : forall a, inL C a = true -> ~ In (preheader C) (succs C a) }.
(** Static single assignment: an instruction which computes a stored value is executed before the store on
    each path. *)
Definition ssa : Prop := forall S k x D j f,
  nth_error (body C S) k = Some (IStore (OReg x)) -> nth_error (body C D) j = Some (IOther x f) ->
  inL C S = true -> inL C D = true ->
  (D = S /\ (j < k)%nat) \/ (D <> S /\ forall p, path p S -> In D p).
(** Each exit is reached from one block of the loop. *)
Definition oneExiting : Prop := forall a b e, inL C a = true -> inL C b = true -> inL C e = false ->
  In e (succs C a) -> In e (succs C b) -> a = b.
(** all exits and all blocks with phi nodes are listed *)
Definition exitsListed (exits : list nat) : Prop := forall a e, inL C a = true -> inL C e = false -> In e (succs C a) -> In e exits.
End W.
