(** Model of the choice of global variables and functions for interprocedural optimization of data
    transfer, /repo/lib/Transform/Clang/DVMHDataTransferIPO.cpp 141-163 (needToOptimize) and 226-394
    (initializeIPO).

    Simplifications.
    - Functions, global variables and values are numbers.  An operand is the object returned by
      getUnderlyingObject with unlimited depth, so results of BitCastInst and GetElementPtrInst are
      never operands.
    - Programs without recursion: the branch 309-346 and InCycle are not modelled.
    - A variable is bound to a global variable itself (236-241), lists of variables are results of
      the loop 245-269. *)
From Coq Require Import PeanoNat Bool List.
Import ListNotations.

Inductive obj :=
  | OGlob (g : nat)        (* a global variable *)
  | OExpr (g : nat)        (* a constant expression which uses the address of a global variable and
                              is not processed by getUnderlyingObject: a cast to an integer *)
  | OArg (k : nat)         (* a formal parameter *)
  | ORes (t : nat)         (* a result of an instruction *)
  | OOther.                (* other constants and local variables *)
Inductive instr :=
  | ILoad (p : obj) (t : nat)
  | IStore (v p : obj)
  | ICall (c : option nat) (args : list obj) (t : nat)   (* None: an indirect call *)
  | ICast (o : obj)                                      (* BitCastInst, GetElementPtrInst *)
  | IRet (o : obj)
  | IOther (os : list obj) (t : nat).
(** OptimizationRegion::contain *)
Inductive status := CSNo | CSAlways | CSCondition | CSChild.
Record func := Func {
  fBody : list instr;
  fDecl : bool;               (* isDeclaration *)
  fLib : bool;                (* an intrinsic or a library function, it is not in mFunctions *)
  fNoCapture : list bool;     (* attributes of formal parameters *)
  fStatus : list status;      (* for each optimization region *)
  fParallel : bool;           (* isParallelCallee *)
  fExternal : bool;           (* ExternalCalls *)
  fTaken : bool               (* the address of the function is used, 302-306 *)
}.
Definition mem (x : nat) (l : list nat) : bool := existsb (Nat.eqb x) l.
Definition remove1 (x : nat) (l : list nat) : list nat := filter (fun y => negb (Nat.eqb x y)) l.
(** 141-163: Optimize, OptimizeChildren *)
Fixpoint needLoop (ss : list status) (children : bool) : bool * bool :=
  match ss with
  | [] => (false, children)
  | CSNo :: ss => needLoop ss children
  | CSAlways :: _ | CSCondition :: _ => (true, true)
  | CSChild :: ss => needLoop ss true
  end.
Definition needToOptimize (x : func) : bool * bool :=
  match fStatus x with [] => (true, true) | ss => needLoop ss false end.

(** mIPOToActual, mIPOToGetActual, mIPOMap (is IPO enabled, variables to ignore), is the IPO root valid *)
Definition entry := (nat * (bool * list nat))%type.
Record state := State { sAct : list nat; sGet : list nat; sMap : list entry; sValid : bool }.
Fixpoint find (f : nat) (m : list entry) : option (bool * list nat) :=
  match m with [] => None | (k, e) :: m => if Nat.eqb k f then Some e else find f m end.
Fixpoint set (f : nat) (e : bool * list nat) (m : list entry) : list entry :=
  match m with
  | [] => [(f, e)]
  | (k, x) :: m => if Nat.eqb k f then (k, e) :: m else (k, x) :: set f e m
  end.
Definition erase (g : nat) (s : state) : state := State (remove1 g (sAct s)) (remove1 g (sGet s)) (sMap s) (sValid s).
Definition ignored (f : nat) (s : state) : list nat := match find f (sMap s) with Some e => snd e | None => [] end.
Definition tracked (o : obj) (s : state) : option nat :=
  match o with OGlob g => if mem g (sAct s) || mem g (sGet s) then Some g else None | _ => None end.

Section Program.
  Variable P : list func.
  (** ClientToServer *)
  Variable server : nat -> nat.
  Definition noCapture (c k : nat) : bool :=
    match nth_error P c with
    | Some y => match nth_error (fNoCapture y) k with Some b => b | None => false end
    | None => false
    end.
  Definition isDecl (c : nat) : bool := match nth_error P c with Some y => fDecl y | None => true end.
  (** 361-382 *)
  Definition visitArg (f : nat) (c : option nat) (k : nat) (o : obj) (s : state) : state :=
    match tracked o s with
    | None => s
    | Some g =>
        match c with
        | Some c =>
            if noCapture c k
            then
              if isDecl c then s
              else
                let e := match find (server c) (sMap s) with Some e => e | None => (false, ignored f s) end in
                State (sAct s) (sGet s) (set (server c) (fst e, g :: snd e) (sMap s)) (sValid s)
            else erase g s
        | None => erase g s
        end
    end.
  Fixpoint visitArgs (f : nat) (c : option nat) (k : nat) (os : list obj) (s : state) : state :=
    match os with [] => s | o :: os => visitArgs f c (S k) os (visitArg f c k o s) end.
  Definition eraseObj (s : state) (o : obj) : state := match tracked o s with Some g => erase g s | None => s end.
  (** 347-388 *)
  Definition visitInstr (f : nat) (s : state) (i : instr) : state :=
    match i with
    | ILoad _ _ | ICast _ => s
    | IStore v _ => eraseObj s v
    | ICall c args _ => visitArgs f c 0 args s
    | IRet o => eraseObj s o
    | IOther os _ => fold_left eraseObj os s
    end.
  (** GO.NoExternalCalls *)
  Variable noExternal : bool.
  (** 280-308 *)
  Definition visitFunc (s : state) (f : nat) : state :=
    match nth_error P f with
    | None => s
    | Some x =>
        if fDecl x then State [] [] (sMap s) false
        else
          let (all, children) := needToOptimize x in
          if negb children then s
          else if fParallel x then s
          else
            let e := match find f (sMap s) with
                     | Some e => e
                     | None => (true, [])
                     end in
            let on := if negb noExternal && fExternal x || negb all || fTaken x then false else fst e in
            fold_left (visitInstr f) (fBody x) (State (sAct s) (sGet s) (set f (on, snd e) (sMap s)) (sValid s))
    end.
  (** [order] is mFunctions in the reverse order *)
  Definition initializeIPO (order acts gets : list nat) : state :=
    fold_left visitFunc order (State acts gets [] true).
End Program.
