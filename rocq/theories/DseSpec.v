(** Executions with memory and what is expected after removal of stores. *)
From Coq Require Import PeanoNat Bool List Permutation.
From Verif Require Import DseModel.
Import ListNotations.

(** A machine: registers, locations and values. *)
Record machine := Machine {
  Regs : Type; Loc : Type; Val : Type;
  addrOf : nat -> Regs -> Loc;
  valueOf : nat -> Regs -> Val;
  onLoad : nat -> Val -> Regs -> Regs;
  onUnknown : nat -> Regs -> (Loc -> Val) -> Regs * (Loc -> Val);
  onOp : nat -> Regs -> Regs;
  locDec : forall a b : Loc, {a = b} + {a <> b};
  next : nat -> Regs -> nat;
  (* memory of local variables is not accessible after a return *)
  isLocal : Loc -> Prop
}.
(** Actions which are visible outside of a function: calls and so on, volatile stores. *)
Inductive event (m : machine) := EUnknown (code : nat) (r : Regs m) | EVolatile (l : Loc m) (v : Val m).
Record config (m : machine) := Config { cPc : nat; cRegs : Regs m; cMem : Loc m -> Val m;
  cEvents : list (event m); cDone : bool }.
Arguments Config {m}. Arguments cPc {m}. Arguments cRegs {m}. Arguments cMem {m}.
Arguments cEvents {m}. Arguments cDone {m}.

(* a store changes a single location *)
Definition write (m : machine) (M : Loc m -> Val m) (l : Loc m) (v : Val m) : Loc m -> Val m :=
  fun l' => if locDec m l l' then v else M l'.
Definition step (m : machine) (is : list instr) (c : config m) : config m :=
  if cDone c then c
  else
    let pc' := next m (cPc c) (cRegs c) in
    match nth (cPc c) is Ret with
    | Store vol a v =>
        let l := addrOf m a (cRegs c) in
        let x := valueOf m v (cRegs c) in
        Config pc' (cRegs c) (write m (cMem c) l x)
          (if vol then EVolatile m l x :: cEvents c else cEvents c) false
    | Load a r =>
        Config pc' (onLoad m r (cMem c (addrOf m a (cRegs c))) (cRegs c)) (cMem c) (cEvents c) false
    | Unknown u =>
        let (r, M) := onUnknown m u (cRegs c) (cMem c) in
        Config pc' r M (EUnknown m u (cRegs c) :: cEvents c) false
    | Op o => Config pc' (onOp m o (cRegs c)) (cMem c) (cEvents c) false
    | Nop => Config pc' (cRegs c) (cMem c) (cEvents c) false
    | Ret => Config (cPc c) (cRegs c) (cMem c) (cEvents c) true
    end.
Fixpoint steps (m : machine) (is : list instr) (n : nat) (c : config m) : config m :=
  match n with O => c | S n => step m is (steps m is n c) end.

(** Results of the analysis of memory are right: each location belongs to at most one set, an
    address refers to locations of its set, an unknown instruction neither uses nor changes sets
    it does not touch, and an address of a local variable refers to it. *)
Definition rightAnalysis (m : machine) (A : analysis) : Prop :=
  exists region : Loc m -> option nat,
    (forall a r, region (addrOf m a r) = Some (setOf A a)) /\
    (forall u r M1 M2,
       (forall l, (forall s, region l = Some s -> In s (touches A u)) -> M1 l = M2 l) ->
       fst (onUnknown m u r M1) = fst (onUnknown m u r M2) /\
       (forall l, (forall s, region l = Some s -> In s (touches A u)) ->
          snd (onUnknown m u r M1) l = snd (onUnknown m u r M2) l)) /\
    (forall u r M l s, region l = Some s -> ~ In s (touches A u) ->
       snd (onUnknown m u r M) l = M l) /\
    (forall a r, isPlainAlloca A a = true -> isLocal m (addrOf m a r)).

(** A function does the same after removal of stores.  [gVolatile]: there are no volatile
    stores to local variables without metadata. *)
Definition C78_same_claim (gVolatile : bool) : Prop :=
  forall (m : machine) (A : analysis) is,
    rightAnalysis m A ->
    (gVolatile = true ->
       forall a v, In (Store true a v) is -> isPlainAlloca A a = false) ->
    forall n (c : config m),
      let c1 := steps m is n c in
      let c2 := steps m (eliminate A is) n c in
      cPc c1 = cPc c2 /\ cRegs c1 = cRegs c2 /\ cEvents c1 = cEvents c2 /\ cDone c1 = cDone c2 /\
      forall l, ~ isLocal m l -> cMem c1 l = cMem c2 l.

(** Each store to memory which is only stored to is removed, the other instructions stay.  *)
Definition C78_found_claim : Prop :=
  forall A is,
    length (eliminate A is) = length is /\
    forall k i, nth_error is k = Some i ->
      (forall vol a v, i = Store vol a v -> In (setOf A a) (modSets A) ->
         (forall j, In j is ->
            match j with
            | Load b _ => setOf A b <> setOf A a
            | Store _ b _ => setOf A b = setOf A a -> isPlainAlloca A b = true
            | Unknown c => ~ In (setOf A a) (touches A c)
            | _ => True
            end) ->
         nth_error (eliminate A is) k = Some Nop) /\
      (nth_error (eliminate A is) k = Some i \/
       nth_error (eliminate A is) k = Some Nop /\ exists vol a v, i = Store vol a v).

(** Removal of operands of a removed store finishes, does not remove instructions which are used
    by remaining ones, does not remove accesses to memory and does not leave operands of removed
    instructions without uses. *)
Definition closed (G : graph) (live : list nat) : Prop :=
  forall y x, In y live -> In x (ops G y) -> In x live.
Definition someOrder (order : list nat -> list nat) : Prop :=
  forall l, Permutation (order l) l.
Definition storeIn (G : graph) (live : list nat) (x : nat) : Prop :=
  NoDup live /\ closed G live /\ In x live /\ inMem G x = true /\
  (forall y, In y live -> ~ In x (ops G y)).
Definition C78_operands_claim : Prop :=
  forall G order live x, someOrder order -> storeIn G live x ->
    (exists fuel live', removeStore fuel G order live x = Some live') /\
    forall fuel live', removeStore fuel G order live x = Some live' ->
      NoDup live' /\ closed G live' /\ ~ In x live' /\ (forall y, In y live' -> In y live) /\
      (forall y, In y live -> ~ In y live' -> y = x \/ inMem G y = false) /\
      (forall y z, In y live -> ~ In y live' -> In z (ops G y) -> inMem G z = false ->
         In z live' -> exists u, In u live' /\ In z (ops G u)).
(** Terminators of basic blocks are not removed.  [gInvoke]: terminators are treated as accesses
    to memory. *)
Definition C78_terminators_claim (gInvoke : bool) : Prop :=
  forall G order live x (isTerminator : nat -> bool), someOrder order -> storeIn G live x ->
    isTerminator x = false ->
    (gInvoke = true -> forall y, isTerminator y = true -> inMem G y = true) ->
    forall fuel live', removeStore fuel G order live x = Some live' ->
      forall y, In y live -> isTerminator y = true -> In y live'.
