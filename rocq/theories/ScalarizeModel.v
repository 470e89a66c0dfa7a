(** Model of the promotion of a pointer to a register in a loop,
    /repo/lib/Transform/IR/PointerScalarizer.cpp:
    - insertLoadInstructions 127-136, insertStoreInstructions 138-145,
    - handleMemoryAccess 147-171, handleLoads 173-186, insertPhiNodes 188-211,
    - fillPhiNodes 213-221, deleteRedundantPhiNodes 223-248, the sequence of them 401-407.

    Simplifications.  Blocks and registers are numbers, values are integers.  Memory except
    the promoted location is one object, other instructions are arbitrary functions of
    registers and of this memory (the check that they do not access the promoted location,
    250-303, is not modelled).  Existing phi nodes are instructions which know the previous
    block.  Uses of a deleted load are not replaced, instead the load becomes a copy of the
    last value.  Loads without users do not exist.  Debug information is not modelled. *)
From Coq Require Import ZArith List Bool.
Import ListNotations.
Local Open Scope Z_scope.

(** an operand of a store: a result of an instruction, a constant (or an argument of the function) *)
Inductive operand := OReg (x : nat) | OConst (c : Z).
Inductive instr :=
| IStore (o : operand)
| ILoad (d : nat)
(** d = f(...) *)
| IOther (d : nat) (f : nat).
Record cfg := mkCfg {
  inL : nat -> bool;
  preheader : nat;
  header : nat;
  succs : nat -> list nat;
  preds : nat -> list nat;
  body : nat -> list instr }.
(** What is known to be the last value: a new phi node, a register, a constant, the load from the
    preheader, a null pointer *)
Inductive lval := LPhi (b : nat) | LReg (x : nat) | LConst (c : Z) | LLoad | LNull.
Definition lvalEq (a b : lval) : bool :=
  match a, b with
  | LPhi a, LPhi b => Nat.eqb a b
  | LReg a, LReg b => Nat.eqb a b
  | LConst a, LConst b => a =? b
  | LLoad, LLoad | LNull, LNull => true
  | _, _ => false
  end.
Inductive tinstr := TCopy (d : nat) (v : lval) | TOther (d : nat) (f : nat).
Definition upd {T} (m : nat -> T) (k : nat) (v : T) : nat -> T := fun x => if Nat.eqb k x then v else m x.
(** the loop after the transformation: bodies, new phi nodes, values stored in exits *)
Record tprog := mkT {
  tBody : nat -> list tinstr;
  tPhi : nat -> option (list (nat * lval));
  tStore : nat -> lval }.

Section C.
Variable C : cfg.

(** insertPhiNodes, 188-211.  [links b]: a block with the phi node *)
Definition phiLinks := nat -> option nat.
Definition linkOf (links : phiLinks) (BB : nat) : nat :=
  match preds C BB with
  | [p] => if inL C p then match links p with Some q => q | None => BB end else BB
  | _ => BB
  end.
Fixpoint insertPhiNodes (fuel : nat) (BB : nat) (links : phiLinks) : option phiLinks :=
  match fuel with
  | O => None
  | S fuel =>
    match (if inL C BB then links BB else None) with
    | Some _ => Some links
    | None =>
      fold_left (fun r s => match r with
        | Some links => if inL C s then insertPhiNodes fuel s links else Some links
        | None => None
        end) (succs C BB) (Some (upd links BB (Some (linkOf links BB))))
    end
  end.

(** handleMemoryAccess, 147-171 *)
Definition asLval (o : operand) : lval := match o with OReg x => LReg x | OConst c => LConst c end.
Fixpoint rewriteBody (LastValue : lval) (l : list instr) : list tinstr * lval :=
  match l with
  | [] => ([], LastValue)
  | IStore o :: l => rewriteBody (asLval o) l
  | ILoad d :: l => let (t, v) := rewriteBody LastValue l in (TCopy d LastValue :: t, v)
  | IOther d f :: l => let (t, v) := rewriteBody LastValue l in (TOther d f :: t, v)
  end.
Record context := mkCtx {
  cLast : nat -> option lval;
  cBody : nat -> list tinstr;
  cCompleted : nat -> bool }.
Definition getLast (c : context) (b : nat) : lval := match cLast c b with Some v => v | None => LNull end.
Definition firstValue (links : phiLinks) (c : context) (BB : nat) : lval :=
  match links BB with
  | None => LNull
  | Some b => if Nat.eqb b BB then LPhi b
              else match preds C BB with [p] => getLast c p | _ => LNull end
  end.
Definition handleMemoryAccess (links : phiLinks) (BB : nat) (c : context) : context :=
  let r := rewriteBody (firstValue links c BB) (body C BB) in
  mkCtx (upd (cLast c) BB (Some (snd r))) (upd (cBody c) BB (fst r)) (cCompleted c).
(** handleLoads, 173-186 *)
Fixpoint handleLoads (links : phiLinks) (fuel : nat) (BB : nat) (Init : bool) (c : context) : option context :=
  match fuel with
  | O => None
  | S fuel =>
    if cCompleted c BB then Some c
    else
      let c := if Init then c else handleMemoryAccess links BB c in
      let c := mkCtx (cLast c) (cBody c) (upd (cCompleted c) BB true) in
      fold_left (fun r s => match r with
        | Some c => if inL C s then handleLoads links fuel s false c
                    else Some (mkCtx (upd (cLast c) s (Some (getLast c BB))) (cBody c) (cCompleted c))
        | None => None
        end) (succs C BB) (Some c)
  end.

(** fillPhiNodes, 213-221 *)
Definition incoming (c : context) (BB : nat) : list (nat * lval) :=
  flat_map (fun p => match cLast c p with Some v => [(p, v)] | None => [] end) (preds C BB).
Definition fillPhiNodes (links : phiLinks) (c : context) : tprog :=
  mkT (cBody c)
      (fun b => match links b with Some b' => if Nat.eqb b b' then Some (incoming c b) else None | None => None end)
      (getLast c).

(** deleteRedundantPhiNodes, 223-248 *)
Definition redundant (inc : list (nat * lval)) : option lval :=
  match inc with
  | [] => None
  | (_, o) :: _ => if forallb (fun x => lvalEq o (snd x)) inc then Some o else None
  end.
Definition substL (b : nat) (v w : lval) : lval := match w with LPhi b' => if Nat.eqb b b' then v else w | _ => w end.
Definition substT (b : nat) (v : lval) (i : tinstr) : tinstr := match i with TCopy d w => TCopy d (substL b v w) | i => i end.
(** replaceAllUsesWith and eraseFromParent; [tStore] is LastValues and it is not changed *)
Definition replacePhi (b : nat) (v : lval) (P : tprog) : tprog :=
  mkT (fun x => map (substT b v) (tBody P x))
      (fun x => if Nat.eqb b x then None else option_map (map (fun e => (fst e, substL b v (snd e)))) (tPhi P x))
      (tStore P).
Inductive deletion := Deleted (P : tprog) (ds : list nat) | DCrash.
(** 239-246, [ds]: deleted phi nodes *)
Fixpoint deleteAll (bs : list nat) (P : tprog) (ds : list nat) : deletion :=
  match bs with
  | [] => Deleted P ds
  | b :: bs =>
    match tPhi P b with
    | Some ((_, v) :: _) =>
      match v with
      | LConst _ | LNull => DCrash (** the operand is not an instruction *)
      | LPhi b' => if Nat.eqb b b' then DCrash (** a value is replaced with itself *)
                   else deleteAll bs (replacePhi b v P) (b :: ds)
      | _ => deleteAll bs (replacePhi b v P) (b :: ds)
      end
    | _ => DCrash
    end
  end.
Definition isRedundant (P : tprog) (b : nat) : bool :=
  match tPhi P b with Some inc => match redundant inc with Some _ => true | None => false end | None => false end.
(** [UniqueNodes]: blocks with new phi nodes, in any order *)
Fixpoint deleteRedundant (fuel : nat) (UniqueNodes : list nat) (P : tprog) (ds : list nat) : option deletion :=
  match fuel with
  | O => None
  | S fuel =>
    let bs := filter (isRedundant P) UniqueNodes in
    match deleteAll bs P ds with
    | DCrash => Some DCrash
    | Deleted P ds => match bs with [] => Some (Deleted P ds) | _ => deleteRedundant fuel UniqueNodes P ds end
    end
  end.

(** 401-407 *)
Inductive result :=
| Done (P : tprog)
| Crash
(** an instruction which does not exist any more is stored in an exit block *)
| Dangling
| NoFuel.
Definition isDeleted (ds : list nat) (v : lval) : bool := match v with LPhi b => existsb (Nat.eqb b) ds | _ => false end.
Definition promote (fuel : nat) (UniqueNodes exits : list nat) : result :=
  match insertPhiNodes fuel (header C) (fun _ => None) with
  | None => NoFuel
  | Some links =>
    match handleLoads links fuel (preheader C) true
            (mkCtx (upd (fun _ => None) (preheader C) (Some LLoad)) (fun _ => []) (fun _ => false)) with
    | None => NoFuel
    | Some c =>
      match deleteRedundant fuel UniqueNodes (fillPhiNodes links c) [] with
      | None => NoFuel
      | Some DCrash => Crash
      | Some (Deleted P ds) => if existsb (fun e => isDeleted ds (tStore P e)) exits then Dangling else Done P
      end
    end
  end.
End C.
