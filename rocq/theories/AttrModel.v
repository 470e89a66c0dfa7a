(** Model of the deduction of function and loop attributes,
    /repo/lib/Transform/IR/InterprocAttr.cpp:
    - addLibFuncAttrsTopDown, 118-128
    - RPOFunctionAttrsAnalysis::runOnModule, 144-191
    - POFunctionAttrsAnalysis::runOnSCC, 206-245
    - addNoIOAttr, 247-268; addDirectUserCalleeAttr, 270-284; addAlwaysReturnAttr, 286-300
    - LoopAttributesDeductionPass::runOnFunction, 318-371
    and of the list of I/O functions:
    - isIOLibFuncName, /repo/lib/Analysis/Attributes.cpp 60-77 and
      /repo/include/tsar/Analysis/LibraryFunctions.def.

    Simplifications.  Functions are numbers, attributes are a set of pairs.  The call graph,
    its strongly connected components, the answer of TargetLibraryInfo and attributes of LLVM
    are inputs.  Users of a function are a tree, if casts share users they are repeated. *)
From Coq Require Import List Bool Arith String.
Import ListNotations.
Local Open Scope bool_scope.
Local Open Scope list_scope.

(** AttrKind, without not_attribute and Inline *)
Inductive attrKind := NoIO | AlwaysReturn | LibFunc | DirectUserCallee | IndirectCall.
Definition kindEq (a b : attrKind) : bool :=
  match a, b with
  | NoIO, NoIO | AlwaysReturn, AlwaysReturn | LibFunc, LibFunc
  | DirectUserCallee, DirectUserCallee | IndirectCall, IndirectCall => true
  | _, _ => false
  end.
(** The set of attributes: hasFnAttr, addFnAttr, Attributes.cpp 47-56 *)
Definition attrs := attrKind -> nat -> bool.
Definition addFnAttr (a : attrs) (k : attrKind) (f : nat) : attrs :=
  fun k' f' => if kindEq k k' && Nat.eqb f f' then true else a k' f'.

(** LibraryFunctions.def *)
Definition IOFunctionNameTable : list string := [
  "clearerr"; "ctermid"; "dprintf"; "fclose"; "fdopen"; "feof"; "ferror"; "fflush"; "fgetc"; "fgetpos";
  "fgetc"; "fgetpos"; "fgets"; "fileno"; "flockfile"; "fmemopen"; "fopen"; "fprintf"; "fputc"; "fputs";
  "fread"; "freopen"; "fscanf"; "fseek"; "fseeko"; "fsetpos"; "ftell"; "ftello"; "ftrylockfile";
  "funlockfile"; "fwrite"; "getc"; "getchar"; "getc_unlocked"; "getchar_unlocked"; "getdelim"; "getline";
  "gets"; "open_memstream"; "pclose"; "perror"; "popen"; "printf"; "putc"; "putchar"; "putc_unlocked";
  "putchar_unlocked"; "puts"; "remove"; "rename"; "renameat"; "rewind"; "scanf"; "setbuf"; "setvbuf";
  "snprintf"; "sprintf"; "sscanf"; "tempnam"; "tmpfile"; "tmpnam"; "tmpfile"; "tmpnam"; "ungetc";
  "vdprintf"; "vfprintf"; "vfscanf"; "vprintf"; "vscanf"; "vsprintf"; "vsscanf"]%string.
Definition isIOLibFuncName (name : string) : bool :=
  match name with
  | EmptyString => false
  | _ => existsb (String.eqb name) IOFunctionNameTable
  end.

(** A use of a function: an operand of a call (the callee or an argument), a cast with its
    users, something else (a store, an initializer, a comparison). *)
Inductive user :=
| UCall (caller : nat) (isCallee : bool)
| UCast (us : list user)
| UOther.

Record module := mkModule {
  (** functions of the module *)
  mFuncs : list nat;
  mName : nat -> string;
  mIntrinsic : nat -> bool;
  mDbgInfo : nat -> bool;
  (** TargetLibraryInfo::getLibFunc *)
  mLib : nat -> bool;
  mDecl : nat -> bool;
  (** LLVM attributes *)
  mWillReturn : nat -> bool;
  mNoReturn : nat -> bool;
  mNoUnwind : nat -> bool;
  mReturnsTwice : nat -> bool;
  (** edges of the call graph, [None]: a node without a function *)
  mEdges : nat -> list (option nat);
  mUsers : nat -> list user }.

Section Module.
Variable M : module.

(** ** POFunctionAttrsAnalysis *)
(** 247-268 *)
Definition ioCandidate (f : nat) : bool :=
  if mIntrinsic M f then false
  else (mLib M f && isIOLibFuncName (mName M f)) || (negb (mLib M f) && mDecl M f).
Definition addNoIOAttr (a : attrs) (SCCFuncs CalleeFuncs : list nat) : list attrKind :=
  if existsb ioCandidate SCCFuncs then []
  else if existsb (fun f => negb (a NoIO f)) CalleeFuncs then []
  else [NoIO].
(** 270-284: the loop over functions of the component has no effect *)
Definition addDirectUserCalleeAttr (a : attrs) (SCCFuncs CalleeFuncs : list nat) : list attrKind :=
  if existsb (fun f => negb (a DirectUserCallee f)) CalleeFuncs then []
  else [DirectUserCallee].
(** 286-300 *)
Definition mayNotReturn (a : attrs) (f : nat) : bool :=
  negb (mWillReturn M f) &&
  (mNoReturn M f || (mDecl M f && negb (mIntrinsic M f) && negb (a LibFunc f))).
Definition addAlwaysReturnAttr (a : attrs) (SCCFuncs CalleeFuncs : list nat) : list attrKind :=
  if existsb (mayNotReturn a) SCCFuncs then []
  else if existsb (fun f => negb (a AlwaysReturn f)) CalleeFuncs then []
  else [AlwaysReturn].

(** 208-213 *)
Definition addDbg (a : attrs) : attrs :=
  fold_left (fun a f => if mDbgInfo M f
    then addFnAttr (addFnAttr (addFnAttr a AlwaysReturn f) NoIO f) DirectUserCallee f else a) (mFuncs M) a.
(** 216-220: [None]: some node has no function *)
Fixpoint allFuncs (ns : list (option nat)) : option (list nat) :=
  match ns with
  | [] => Some []
  | None :: _ => None
  | Some f :: ns => match allFuncs ns with Some l => Some (f :: l) | None => None end
  end.
(** 221-230 *)
Definition calleeFuncs (SCCFuncs : list nat) : option (list nat) :=
  match allFuncs (flat_map (mEdges M) SCCFuncs) with
  | None => None
  | Some l => Some (filter (fun f => negb (existsb (Nat.eqb f) SCCFuncs)) l)
  end.
(** 240-242 *)
Definition addAll (a : attrs) (SCCFuncs : list nat) (ks : list attrKind) : attrs :=
  fold_left (fun a f => fold_left (fun a k => addFnAttr a k f) ks a) SCCFuncs a.
Definition runOnSCC (a : attrs) (SCC : list (option nat)) : attrs :=
  let a := addDbg a in
  match allFuncs SCC with
  | None => a
  | Some SCCFuncs =>
    match calleeFuncs SCCFuncs with
    | None => a
    | Some Callees =>
      addAll a SCCFuncs
        (addNoIOAttr a SCCFuncs Callees ++ addAlwaysReturnAttr a SCCFuncs Callees ++
         addDirectUserCalleeAttr a SCCFuncs Callees)
    end
  end.
(** the pass manager visits components one by one *)
Definition runPO (a : attrs) (SCCs : list (list (option nat))) : attrs := fold_left runOnSCC SCCs a.

(** ** RPOFunctionAttrsAnalysis *)
(** 150-162: users which are not casts *)
Fixpoint collect (u : user) : list user :=
  match u with
  | UCast us => flat_map collect us
  | _ => [u]
  end.
(** 163-168 *)
Definition notCall (u : user) : bool := match u with UCall _ _ => false | _ => true end.
Definition addIndirect (a : attrs) : attrs :=
  fold_left (fun a f => if existsb (fun u => existsb notCall (collect u)) (mUsers M f)
    then addFnAttr a IndirectCall f else a) (mFuncs M) a.
(** 172-185: functions of a component and whether there is a library function *)
Definition sccFuncs (SCC : list (option nat)) : list nat :=
  flat_map (fun n => match n with Some f => if mIntrinsic M f then [] else [f] | None => [] end) SCC.
Definition addLibSCC (st : attrs * list nat) (SCC : list (option nat)) : attrs * list nat :=
  let (a, Worklist) := st in
  let fs := sccFuncs SCC in
  (if existsb (mLib M) fs then fold_left (fun a f => addFnAttr a LibFunc f) fs a else a, Worklist ++ fs).
(** 118-128 *)
Definition addLibFuncAttrsTopDown (a : attrs) (f : nat) : attrs :=
  if existsb (fun u => match u with UCall c _ => a LibFunc c | _ => false end) (mUsers M f)
  then addFnAttr a LibFunc f else a.
(** 144-191 *)
Definition runRPO (a : attrs) (SCCs : list (list (option nat))) : attrs :=
  let (a, Worklist) := fold_left addLibSCC SCCs (addIndirect a, []) in
  fold_left addLibFuncAttrsTopDown (rev Worklist) a.

(** ** LoopAttributesDeductionPass::runOnFunction, 318-371 *)
(** A call: the callee after casts are stripped, or [None]. *)
Record loopState := mkLS { MayIO : bool; MayNoReturn : bool; MayUnwind : bool; MayReturnsTwice : bool }.
(** A block: [None] is an instruction which is not a call, [Some None] is an indirect
    call.  [break] leaves the block. *)
Fixpoint visitBlock (a : attrs) (st : loopState) (BB : list (option (option nat))) : loopState :=
  match BB with
  | [] => st
  | None :: BB => visitBlock a st BB
  | Some None :: _ => mkLS true true true true
  | Some (Some f) :: BB =>
    visitBlock a (mkLS (MayIO st || negb (a NoIO f)) (MayNoReturn st || negb (a AlwaysReturn f))
      (MayUnwind st || negb (mNoUnwind M f)) (MayReturnsTwice st || mReturnsTwice M f)) BB
  end.
Definition visitLoop (a : attrs) (blocks : list (list (option (option nat)))) : loopState :=
  fold_left (visitBlock a) blocks (mkLS false false false false).
(** hasAttr(L, NoIO), hasAttr(L, AlwaysReturn), hasAttr(L, NoUnwind), hasAttr(L, ReturnsTwice) *)
Definition loopNoIO a bs := negb (MayIO (visitLoop a bs)).
Definition loopAlwaysReturn a bs := negb (MayNoReturn (visitLoop a bs)).
Definition loopNoUnwind a bs := negb (MayUnwind (visitLoop a bs)).
Definition loopReturnsTwice a bs := MayReturnsTwice (visitLoop a bs).
End Module.
