(** Model of the pass which places each call into a basic block of its own,
    /repo/lib/Transform/IR/CallExtractor.cpp 60-112.

    Simplifications.
    - An instruction is a PHI node, a call (possibly a musttail one), a marker (intrinsics for
      debug information and for lifetime of memory) or anything else; it refers to an action.
      PHI nodes choose an action according to a previous block.
    - A basic block is never without a terminator (83-84).
    - BasicBlock::splitBasicBlock() is a part of LLVM: instructions from a given one are moved
      to a new block which is placed after the existing one, a branch to it is added, PHI nodes
      of successors refer to the new block. *)
From Coq Require Import PeanoNat Bool List.
Import ListNotations.

Definition label := nat.
Inductive instr :=
| IPhi (from : list (label * nat))
| ICall (mustTail : bool) (code : nat)
| IMark (code : nat)
| IOp (code : nat).
Inductive term :=
| TJump (next : label)
| TBr (code : nat) (next : list label)
| TRet (code : nat).
Record block := Block { bLabel : label; bBody : list instr; bTerm : term }.

Definition succs (t : term) : list label :=
  match t with TJump l => [l] | TBr _ ls => ls | TRet _ => [] end.

(** 60-65, needToExtract. *)
Definition needToExtract (i : instr) : bool :=
  match i with ICall _ _ => true | _ => false end.
Definition isMarker (i : instr) : bool := match i with IMark _ => true | _ => false end.

(** 67-76, getNextUsefulInstruction: a number of the instruction after [Inst] in its block;
    instructions in [rest] and a terminator follow it.  Note, that Inst is checked in each
    iteration. *)
Fixpoint getNextUseful (Inst : instr) (rest : list instr) (num : nat) : option nat :=
  if isMarker Inst
  then match rest with [] => None | _ :: rest => getNextUseful Inst rest (S num) end
  else Some num.

(** splitBasicBlock. *)
Definition renamePhi (Old New : label) (i : instr) : instr :=
  match i with
  | IPhi from => IPhi (map (fun p => (if Nat.eqb (fst p) Old then New else fst p, snd p)) from)
  | _ => i
  end.
Definition renameIn (ls : list label) (Old New : label) (b : block) : block :=
  if existsb (Nat.eqb (bLabel b)) ls
  then Block (bLabel b) (map (renamePhi Old New) (bBody b)) (bTerm b) else b.
Definition labelsOf (b : block) : list label :=
  bLabel b :: succs (bTerm b)
  ++ flat_map (fun i => match i with IPhi from => map fst from | _ => [] end) (bBody b).
Definition fresh (fn : list block) : label := S (list_max (flat_map labelsOf fn)).
(* the block after [Pre] is split at an instruction [j] *)
Definition splitBlock (Pre : list block) (b : block) (Post : list block) (j : nat) : list block :=
  let New := fresh (Pre ++ b :: Post) in
  map (renameIn (succs (bTerm b)) (bLabel b) New)
    (Pre ++ Block (bLabel b) (firstn j (bBody b)) (TJump New)
         :: Block New (skipn j (bBody b)) (bTerm b) :: Post).
Definition splitAt (fn : list block) (i j : nat) : list block :=
  match skipn i fn with
  | b :: Post => splitBlock (firstn i fn) b Post j
  | [] => fn
  end.

(* 95-96: a search for a call *)
Fixpoint findCall (is : list instr) (num : nat) : option nat :=
  match is with
  | [] => None
  | x :: is => if needToExtract x then Some num else findCall is (S num)
  end.

(** 82-106: processing of a block with a number [i]; [None]: a failed assertion. *)
Definition visit (fn : list block) (i : nat) : option (list block) :=
  match nth_error fn i with
  | None => Some fn
  | Some b =>
      match bBody b with
      | [] => Some fn
      | x :: is =>
          if needToExtract x then
            match getNextUseful x is 1 with
            | None => None
            | Some n => if Nat.eqb n (length (bBody b)) then Some fn else Some (splitAt fn i n)
            end
          else
            match findCall is 1 with
            | None => Some fn
            | Some j =>
                let fn := splitAt fn i j in
                match skipn j (bBody b) with
                | [] => None
                | c :: rest =>
                    match getNextUseful c rest 1 with
                    | None => None
                    | Some n =>
                        if Nat.eqb n (length (c :: rest)) then Some fn
                        else Some (splitAt fn (S i) n)
                    end
                end
            end
      end
  end.

(** 80-108: blocks are visited one after another, new blocks are visited too.
    [None]: an assertion or an unfinished loop. *)
Fixpoint loop (fuel : nat) (fn : list block) (i : nat) : option (list block) :=
  if length fn <=? i then Some fn
  else match fuel with
       | O => None
       | S fuel => match visit fn i with None => None | Some fn => loop fuel fn (S i) end
       end.
Definition runOnFunction (fuel : nat) (fn : list block) : option (list block) := loop fuel fn 0.
