(** Executions of a program with calls, for the meaning of attributes (C54).  It does not
    use the analysis; the only common part is the description of a module. *)
From Coq Require Import List Bool Arith String.
From Verif Require Import AttrModel.
Import ListNotations.
Local Open Scope list_scope.

(** ** A program *)
(** a direct call, a call through a pointer, a jump to one of several instructions, a return *)
Inductive instr := ICall (g : nat) | ICallPtr | IGoto (targets : list nat) | IRet.
Record program := mkProgram {
  (** instructions of a function by numbers; [None] everywhere for functions without a body *)
  defined : nat -> bool;
  code : nat -> nat -> option instr;
  (** what functions without a body may do: input/output, to stop the program or to leave
      callers in another way, to call arbitrary functions back *)
  extIO : nat -> Prop;
  extExit : nat -> Prop;
  extBack : nat -> Prop }.

(** EUnknown: a function is called, which is not known statically *)
Inductive event := EIO | EExit | EUnknown.
Definition frame := (nat * nat)%type.
Inductive step (P : program) : list frame -> option event -> list frame -> Prop :=
| step_call f pc s g : defined P f = true -> code P f pc = Some (ICall g) ->
    step P ((f, pc) :: s) None ((g, 0) :: (f, S pc) :: s)
| step_ptr f pc s g : defined P f = true -> code P f pc = Some ICallPtr ->
    step P ((f, pc) :: s) (Some EUnknown) ((g, 0) :: (f, S pc) :: s)
| step_goto f pc s t ts : defined P f = true -> code P f pc = Some (IGoto ts) -> In t ts ->
    step P ((f, pc) :: s) None ((f, t) :: s)
| step_ret f pc s : defined P f = true -> code P f pc = Some IRet -> step P ((f, pc) :: s) None s
| step_ext_ret f pc s : defined P f = false -> step P ((f, pc) :: s) None s
| step_ext_io f pc s : defined P f = false -> extIO P f -> step P ((f, pc) :: s) (Some EIO) ((f, pc) :: s)
| step_ext_exit f pc s : defined P f = false -> extExit P f -> step P ((f, pc) :: s) (Some EExit) []
| step_ext_back f pc s g : defined P f = false -> extBack P f ->
    step P ((f, pc) :: s) (Some EUnknown) ((g, 0) :: (f, pc) :: s).

Inductive exec (P : program) : list frame -> list event -> list frame -> Prop :=
| exec_nil s : exec P s [] s
| exec_cons s o s' tr s'' : step P s o s' -> exec P s' tr s'' ->
    exec P s (match o with Some e => e :: tr | None => tr end) s''.

(** A call of f may lead to the event e, at any depth and at any moment. *)
Definition performs (P : program) (f : nat) (e : event) : Prop :=
  exists tr s, exec P [(f, 0)] tr s /\ In e tr.
(** No execution of a call of f comes to its end. *)
Definition neverReturns (P : program) (f : nat) : Prop := forall tr s, exec P [(f, 0)] tr s -> s <> [].

(** ** What LLVM says about the program *)
Definition silent (P : program) (f : nat) : Prop :=
  defined P f = false /\ ~ extIO P f /\ ~ extExit P f /\ ~ extBack P f.
Record faithful (M : module) (P : program) : Prop := {
  fa_decl : forall f, defined P f = negb (mDecl M f);
  (** each call is an edge of the call graph, except for calls of intrinsics *)
  fa_call : forall f pc g, code P f pc = Some (ICall g) -> In (Some g) (mEdges M f) \/ (mIntrinsic M g = true /\ silent P g);
  fa_ptr : forall f pc, code P f pc = Some ICallPtr -> In None (mEdges M f);
  fa_back : forall f, extBack P f -> In None (mEdges M f);
  fa_dbg : forall f, mDbgInfo M f = true -> silent P f;
  fa_intrinsic : forall f, mIntrinsic M f = true -> ~ extIO P f }.
(** the list of I/O library functions is complete *)
Definition ioTableComplete (M : module) (P : program) : Prop :=
  forall f, mLib M f = true -> isIOLibFuncName (mName M f) = false -> ~ extIO P f.
(** functions which are declared to return, intrinsics and library functions return, if
    it is not said that they do not. *)
Definition externalsReturn (M : module) (P : program) (a : attrs) : Prop :=
  forall f, mDecl M f = true ->
  mWillReturn M f = true \/ (mNoReturn M f = false /\ (mIntrinsic M f = true \/ a LibFunc f = true)) -> ~ extExit P f.

(** ** Reachability in the call graph *)
Inductive reach (M : module) : nat -> nat -> Prop :=
| reach_refl f : reach M f f
| reach_step f g h : In (Some g) (mEdges M f) -> reach M g h -> reach M f h.

(** The order in which the pass manager visits components: each function is in some
    component, callees are in the same component or in a previous one, functions of a
    component call each other. *)
Definition inSCC (SCC : list (option nat)) (f : nat) : Prop := In (Some f) SCC.
Definition bottomUp (M : module) (SCCs : list (list (option nat))) : Prop :=
  forall before SCC after, SCCs = before ++ SCC :: after ->
  forall f, inSCC SCC f ->
    (forall x, In x SCC -> exists g, x = Some g /\ reach M f g) /\
    (forall g, In (Some g) (mEdges M f) -> inSCC SCC g \/ exists S, In S before /\ inSCC S g).
