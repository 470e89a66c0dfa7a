(** Model of the collector of global variables which are referenced in functions,
    GlobalsAccessCollector::runOnModule, /repo/lib/Analysis/Memory/GlobalsAccess.cpp 105-179.

    Simplifications.  Functions and global variables are numbers.  The call graph, its
    components, attributes and operands of instructions are inputs.  The loop 114-139 over a
    component is repeated until nothing changes, but it reads sets of functions which are
    not changed by it, so one pass is enough.  Sets are lists, repetitions do not matter. *)
From Coq Require Import List Bool Arith.
Import ListNotations.

(** An operand: a global variable, an address computation or a cast of pointers, casts to
    integers and back, a constant which consists of other constants, anything else. *)
Inductive value :=
| VGlobal (g : nat)
| VAddr (v : value)
| VPtrToInt (v : value)
| VIntToPtr (v : value)
| VAggregate (vs : list value)
| VOther.
(** llvm::getUnderlyingObject without a limit *)
Fixpoint getUnderlyingObject (v : value) : value :=
  match v with
  | VAddr v => getUnderlyingObject v
  | _ => v
  end.
(** 159-168: the loop computes [Curr] from [Op] and not from the previous [Curr], so
    its second iteration repeats the first one and the loop ends. *)
Definition underlying (Op : value) : value :=
  let Curr := getUnderlyingObject Op in
  match Curr with
  | VPtrToInt v => getUnderlyingObject v
  | _ => Curr
  end.

Record gmodule := mkG {
  gGlobals : list nat;
  gEmpty : nat -> bool;
  gIntrinsic : nat -> bool;
  (** sapfor.libfunc *)
  gLib : nat -> bool;
  gArgMemOnly : nat -> bool;
  (** [None]: a node without a function *)
  gEdges : nat -> list (option nat);
  (** operands of all instructions *)
  gOperands : nat -> list value }.

Section G.
Variable M : gmodule.
Definition accesses := nat -> list nat.
(** 117-125 *)
Definition unknownNode (n : option nat) : bool :=
  match n with
  | None => true
  | Some f => gEmpty M f && negb (gIntrinsic M f) && gLib M f && negb (gArgMemOnly M f)
  end.
(** 126-136 *)
Definition unknownCallee (n : option nat) : bool :=
  match n with
  | None => true
  | Some f => existsb (fun e => match e with None => true | Some _ => false end) (gEdges M f)
  end.
Definition fromCallees (acc : accesses) (n : option nat) : list nat :=
  match n with
  | None => []
  | Some f => flat_map (fun e => match e with Some c => acc c | None => [] end) (gEdges M f)
  end.
(** 150-171 *)
Definition ownAccesses (n : option nat) : list nat :=
  match n with
  | None => []
  | Some f =>
    if gEmpty M f then []
    else flat_map (fun v => match underlying v with VGlobal g => [g] | _ => [] end) (gOperands M f)
  end.
(** 140-147 *)
Definition tracked (f : nat) : bool := negb (gIntrinsic M f) && negb (gLib M f) && negb (gArgMemOnly M f).
Definition storeAccesses (acc : accesses) (SCC : list (option nat)) (gs : list nat) : accesses :=
  fold_left (fun acc n => match n with
    | Some f => if tracked f then (fun f' => if Nat.eqb f f' then acc f' ++ gs else acc f') else acc
    | None => acc end) SCC acc.
Definition visitSCC (acc : accesses) (SCC : list (option nat)) : accesses :=
  if existsb unknownNode SCC || existsb unknownCallee SCC
  then storeAccesses acc SCC (gGlobals M)
  else storeAccesses acc SCC (flat_map (fromCallees acc) SCC ++ flat_map ownAccesses SCC).
Definition runOnModule (SCCs : list (list (option nat))) : accesses := fold_left visitSCC SCCs (fun _ => []).
End G.
