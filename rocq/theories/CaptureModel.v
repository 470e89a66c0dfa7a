(** Model of the search for pointer arguments which are not captured,
    /repo/lib/Transform/IR/NoCaptureAnalysis.cpp:
    - isCaptured, 114-175
    - applyDefinitionConstraint, 177-232
    - applyUsageConstraint, 234-290
    - runOnModule, runOnFunction and setNocaptureToAll, 60-112.

    Simplifications.  Values are numbers, an instruction is identified with its result.
    Orders of lists of uses are inputs.  Users which are not instructions do not exist
    for arguments and results of instructions.  Only direct callees have attributes. *)
From Coq Require Import ZArith List Bool.
Import ListNotations.
Local Open Scope Z_scope.

Inductive instr :=
| IStore (v p : nat)
| ILoad (p : nat)
| IGep (base : nat) (idxs : list nat)
| IBitCast (v : nat)
| IAlloca
(** [None]: an indirect call, the called operand is the last one *)
| ICall (callee : option nat) (args : list nat)
(** other instructions, for example, phi, select, ptrtoint, ret *)
| IOther (ops : list nat).
Inductive leafKind := KArg | KGlobal | KConst.
Record func := mkFunc {
  fInstr : nat -> option instr;
  (** what is a value if it is not an instruction *)
  fLeaf : nat -> leafKind;
  (** Value::uses(): users and numbers of operands *)
  fUses : nat -> list (nat * nat) }.
(** Attributes of callees: nocapture of parameters, noalias of a result, isVarArg,
    sapfor.libfunc *)
Record attributes := mkAttr {
  aNoCapture : nat -> nat -> bool;
  aNoAlias : nat -> bool;
  aVarArg : nat -> bool;
  aLib : nat -> bool }.
Definition operands (i : instr) : list nat :=
  match i with
  | IStore v p => [v; p]
  | ILoad p => [p]
  | IGep b is => b :: is
  | IBitCast v => [v]
  | IAlloca => []
  | ICall _ args => args
  | IOther ops => ops
  end.

Section F.
Variable F : func.
Variable A : attributes.

(** A result of a constraint: the analysis fails, a null pointer is dereferenced, a node
    with a rank (if any) *)
Inductive constraint := Fail | Crash | Ok (n : option (nat * Z)).
(** applyDefinitionConstraint, 177-232 *)
Definition applyDefinitionConstraint (v : nat) (Rang : Z) : constraint :=
  match fInstr F v with
  | None =>
    match fLeaf F v with
    | KArg => if Rang =? 0 then Ok None else Fail
    | KGlobal => Fail
    | KConst => Fail
    end
  | Some (ILoad p) => Ok (Some (p, Rang + 1))
  | Some (ICall None _) => Crash
  | Some (ICall (Some g) _) => if aNoAlias A g then Ok None else Fail
  | Some (IGep b _) => Ok (Some (b, Rang))
  | Some IAlloca => Ok None
  | Some (IBitCast x) => Ok (Some (x, Rang))
  | Some (IStore _ _) | Some (IOther _) => Fail
  end.
(** applyUsageConstraint, 234-290; [i] is the number of the instruction *)
Definition callSuccess (callee : option nat) (OpNo : nat) : bool :=
  match callee with
  | None => false
  | Some g =>
    if aVarArg A g && aLib A g then true
    else if aVarArg A g then false
    else aNoCapture A g OpNo
  end.
Definition applyUsageConstraint (i : nat) (ins : instr) (OpNo : nat) (Rang : Z) : constraint :=
  match ins with
  | IStore v p =>
    (** getPointerOperandIndex() is 1 *)
    if Nat.eqb OpNo 1 then Ok (Some (v, Rang - 1)) else Ok (Some (p, Rang + 1))
  | ILoad _ => Ok (Some (i, Rang - 1))
  | IGep _ _ => Ok (Some (i, Rang))
  | IBitCast _ => Ok (Some (i, Rang))
  | ICall callee _ => if callSuccess callee OpNo then Ok None else Fail
  | IAlloca | IOther _ => Fail
  end.

(** isCaptured, 114-175 *)
Definition registry := nat -> option Z.
Definition insert (reg : registry) (n : nat) (r : Z) : registry := fun x => if Nat.eqb n x then Some r else reg x.
Inductive outcome := NotCaptured (reg : registry) | Captured | NullDeref | OutOfFuel.
Record state := mkSt { sReg : registry; sSeen : list nat; sQueue : list nat }.
Inductive progress := Go (s : state) | Stop (o : outcome).
(** add a node: 132-142, 161-171 *)
Definition addNode (s : state) (c : constraint) : progress :=
  match c with
  | Fail => Stop Captured
  | Crash => Stop NullDeref
  | Ok None => Go s
  | Ok (Some (n, r)) =>
    match sReg s n with
    | None => Go (mkSt (insert (sReg s) n r) (sSeen s) (sQueue s ++ [n]))
    | Some r' => if r' =? r then Go s else Stop Captured
    end
  end.
(** 143-172 *)
Fixpoint visitUses (CurRang : Z) (us : list (nat * nat)) (s : state) : progress :=
  match us with
  | [] => Go s
  | (i, OpNo) :: us =>
    match fInstr F i with
    | None => Stop Captured
    | Some ins =>
      if existsb (Nat.eqb i) (sSeen s) then visitUses CurRang us s
      else match addNode (mkSt (sReg s) (i :: sSeen s) (sQueue s)) (applyUsageConstraint i ins OpNo CurRang) with
           | Go s => visitUses CurRang us s
           | Stop o => Stop o
           end
    end
  end.
Fixpoint loop (fuel : nat) (s : state) : outcome :=
  match sQueue s with
  | [] => NotCaptured (sReg s)
  | v :: q =>
    match fuel with
    | O => OutOfFuel
    | S fuel =>
      let s := mkSt (sReg s) (sSeen s) q in
      match sReg s v with
      | None => OutOfFuel (** each value in the queue is registered *)
      | Some r =>
        if r <? 0 then loop fuel s
        else match addNode s (applyDefinitionConstraint v r) with
             | Stop o => o
             | Go s =>
               match visitUses r (fUses F v) s with
               | Stop o => o
               | Go s => loop fuel s
               end
             end
      end
    end
  end.
Definition isCaptured (fuel : nat) (Arg : nat) : outcome :=
  loop fuel (mkSt (insert (fun _ => None) Arg 0) [] [Arg]).
End F.

(** The choice of functions, 60-112: parameters of intrinsics and of library functions are
    not captured, functions without a body are not changed, others are analyzed (unless
    there is recursion somewhere before them). *)
Inductive funKind := FIntrinsic | FLib | FDecl | FDef (f : func).
Definition markArgument (fuel : nat) (A : attributes) (k : funKind) (Arg : nat) (hasNoCapture : bool) : bool :=
  match k with
  | FIntrinsic | FLib => true
  | FDecl => hasNoCapture
  | FDef f => if hasNoCapture then true
              else match isCaptured f A fuel Arg with NotCaptured _ => true | _ => false end
  end.
