(** Executions of loops with memory and registers, what a description of a loop in
    canonical form means (C58, C59).  Only syntax of instructions is taken from the model. *)
From Coq Require Import ZArith List Bool.
From Verif Require Import CanonModel.
Import ListNotations.
Local Open Scope Z_scope.

Record state := mkState { regs : nat -> Z; mem : Z -> Z }.

Section Machine.
(** Width of integers. *)
Variable w : Z.
Definition wrap (z : Z) : Z := z mod 2 ^ w.
Definition signed (z : Z) : Z := if wrap z <? 2 ^ (w - 1) then wrap z else wrap z - 2 ^ w.
Definition holds (p : pred) (a b : Z) : bool :=
  match p with
  | PEq => wrap a =? wrap b | PNe => negb (wrap a =? wrap b)
  | PSlt => signed a <? signed b | PSle => signed a <=? signed b
  | PSgt => signed b <? signed a | PSge => signed b <=? signed a
  | PUlt => wrap a <? wrap b | PUle => wrap a <=? wrap b
  | PUgt => wrap b <? wrap a | PUge => wrap b <=? wrap a
  end.
(** Meaning of other computations, addresses of globals, values of arguments, calls:
    number of a call, values of arguments, memory before and after the call, a result. *)
Variable otherOp : nat -> Z -> Z -> Z.
Variable pureOp : nat -> list Z -> Z.
Variable globalAddr : nat -> Z.
Variable argVal : nat -> Z.
Variable callSem : nat -> list Z -> (Z -> Z) -> (Z -> Z) -> Z -> Prop.
Variable C : ctx.

Definition ev (s : state) (v : value) : Z :=
  match v with
  | VUser x => regs s x | VConst c => c | VGlobal g => globalAddr g | VArg a => argVal a
  end.
Definition op (x : nat) : opcode := iOp (cInst C x).
Definition args (x : nat) : list value := iArgs (cInst C x).
(** Values computed from values of operands; conversions preserve values. *)
Definition compute (o : opcode) (vs : list Z) : option Z :=
  match o, vs with
  | OBin BAdd, [a; b] => Some (wrap (a + b))
  | OBin BSub, [a; b] => Some (wrap (a - b))
  | OBin (BOther k), [a; b] => Some (otherOp k a b)
  | OCmp p, [a; b] => Some (if holds p a b then 1 else 0)
  | OCast, [a] => Some a
  | OPure k, vs => Some (pureOp k vs)
  | _, _ => None
  end.
Definition result (s s' : state) (x : nat) (z : Z) : Prop :=
  regs s' x = z /\ forall y, y <> x -> regs s' y = regs s y.
Inductive step (s : state) (x : nat) (s' : state) : Prop :=
| st_load p : op x = OLoad -> args x = [p] -> result s s' x (mem s (ev s p)) -> (forall a, mem s' a = mem s a) -> step s x s'
| st_store v p : op x = OStore -> args x = [v; p] -> (forall y, regs s' y = regs s y) ->
    mem s' (ev s p) = ev s v -> (forall a, a <> ev s p -> mem s' a = mem s a) -> step s x s'
| st_compute z : compute (op x) (map (ev s) (args x)) = Some z -> result s s' x z -> (forall a, mem s' a = mem s a) -> step s x s'
| st_phi v : op x = OPhi -> In v (args x) -> result s s' x (ev s v) -> (forall a, mem s' a = mem s a) -> step s x s'
| st_alloca z : op x = OAlloca -> result s s' x z -> (forall a, mem s' a = mem s a) -> step s x s'
| st_branch : op x = OBranch -> (forall y, regs s' y = regs s y) -> (forall a, mem s' a = mem s a) -> step s x s'
| st_call f z : op x = OCall f -> callSem x (map (ev s) (args x)) (mem s) (mem s') z -> result s s' x z -> step s x s'.

(** Nodes of the alias tree: addresses in them. *)
Variable covers : nat -> Z -> Prop.
(** An address which may be accessed according to an access. *)
Definition mayTouch (x : nat) (a : access) (addr : Z) : Prop :=
  match a with
  | ALoc idx _ _ => match cDim C x idx with None => True | Some n => covers n addr end
  | AUnk _ _ => match cDimU C x with None => True | Some n => covers n addr end
  end.
Definition reads (a : access) : bool := match a with ALoc _ r _ => r | AUnk r _ => r end.
Definition writes (a : access) : bool := match a with ALoc _ _ w => w | AUnk _ w => w end.
(** Unreachable nodes have no common addresses. *)
Definition treeRight : Prop :=
  forall n m a, cUnreach C n m = true -> covers n a -> covers m a -> False.
(** Calls change only what is listed, their results depend only on arguments and on what is
    listed unless unknown memory is changed. *)
Definition callsRight : Prop :=
  (forall x f vs m m' z a, op x = OCall f -> callSem x vs m m' z -> m' a <> m a ->
     exists c, In c (cCall C x) /\ writes c = true /\ mayTouch x c a) /\
  (forall x f vs m1 m1' z1 m2 m2' z2, op x = OCall f ->
     (forall r wr, In (AUnk r wr) (cCall C x) -> cOnlyReads C x = true) ->
     callSem x vs m1 m1' z1 -> callSem x vs m2 m2' z2 ->
     (forall c a, In c (cCall C x) -> reads c = true -> mayTouch x c a -> m1 a = m2 a) -> z1 = z2).
(** Loads and stores access addresses of their nodes. *)
Definition aliasRight (s : state) (x : nat) : Prop :=
  match op x, args x with
  | OLoad, [p] => match cDim C x 0 with None => True | Some n => covers n (ev s p) end
  | OStore, [_; p] => match cDim C x 1 with None => True | Some n => covers n (ev s p) end
  | _, _ => True
  end.
(** A node without a trait in a loop, or a node which is read-only or is not accessed,
    is not changed in the loop. *)
Definition keptNode (traits : nat -> option bool) (n : nat) : Prop := traits n = None \/ traits n = Some true.
Definition traitsRight (traits : nat -> option bool) (s s' : state) : Prop :=
  forall n a, keptNode traits n -> covers n a -> mem s' a = mem s a.
(** A step of a loop: results of other analyses are right. *)
Definition lstep (traits : nat -> option bool) (s : state) (x : nat) (s' : state) : Prop :=
  step s x s' /\ aliasRight s x /\ traitsRight traits s s'.
Inductive exec (traits : nat -> option bool) : list nat -> state -> state -> Prop :=
| e_nil s : exec traits [] s s
| e_cons x xs s s1 s2 : lstep traits s x s1 -> exec traits xs s1 s2 -> exec traits (x :: xs) s s2.

(** Executions of a part of a program (a set of instructions) in any order such that
    operands are computed before they are used; [done] is what has been executed in the
    current iteration.  Each control flow is covered. *)
Definition ready (inS : nat -> Prop) (done : list nat) (x : nat) : Prop :=
  op x <> OPhi -> forall y, In (VUser y) (args x) -> inS y -> In y done.
Inductive reach (inS : nat -> Prop) (traits : nat -> option bool) (s0 : state) : list nat -> state -> Prop :=
| r_start : reach inS traits s0 [] s0
| r_step done s x s' : reach inS traits s0 done s -> inS x -> ready inS done x -> lstep traits s x s' -> reach inS traits s0 (x :: done) s'
| r_next done s : reach inS traits s0 done s -> reach inS traits s0 [] s.
(** A value is available. *)
Definition evaluated (inS : nat -> Prop) (done : list nat) (v : value) : Prop :=
  match v with VUser y => inS y -> In y done | _ => True end.
(** Allocas and constant expressions are outside, instructions without results are not operands. *)
Definition operandsRight (inS : nat -> Prop) : Prop :=
  (forall x, inS x -> op x <> OAlloca) /\ (forall x, op x = OConstExpr -> ~ inS x) /\ (forall x y, In (VUser y) (args x) -> op y <> OStore /\ op y <> OBranch).

Variable L : loop.
Definition inLoop (x : nat) : Prop := exists b, In b (lBlocks L) /\ In x (lCode L b).
(** Instructions executed if control goes through given blocks. *)
Definition along (bs : list nat) : list nat := flat_map (lCode L) bs.
(** Blocks executed in an iteration after the header: any blocks of the loop (inner loops
    may be executed), the last one is the latch. *)
Definition iterationBlocks (latch : nat) (bs : list nat) : Prop :=
  exists bs', bs = bs' ++ [latch] /\ (forall b, In b bs' -> In b (lBlocks L) /\ b <> latch /\ b <> lHeader L).
(** n iterations, the first and the last states are states before the header.  The body is
    executed if the comparison holds. *)
Inductive iterations (traits : nat -> option bool) (latch cmp : nat) (s0 : state) : nat -> state -> Prop :=
| it_0 : iterations traits latch cmp s0 O s0
| it_S n s h s' bs : iterations traits latch cmp s0 n s ->
    exec traits (lCode L (lHeader L)) s h -> regs h cmp = 1 ->
    iterationBlocks latch bs -> exec traits (along bs) h s' ->
    iterations traits latch cmp s0 (S n) s'.

(** SSA form without registers which live from one iteration to another: operands are
    computed in the same iteration before the use, or outside of the loop.  Allocas are
    outside of the loop, instructions without results are not operands. *)
Definition definedBefore (xs : list nat) : Prop :=
  forall pre x post, xs = pre ++ x :: post -> op x <> OPhi ->
    forall y, In (VUser y) (args x) -> inLoop y -> In y pre.
Definition ssa : Prop :=
  (forall latch bs, lLatch L = Some latch -> iterationBlocks latch bs -> definedBefore (along (lHeader L :: bs))) /\
  definedBefore (lCode L (lHeader L)) /\
  operandsRight inLoop /\
  (forall b, In b (lBlocks L) -> NoDup (lCode L b)) /\
  (forall b b' x, In b (lBlocks L) -> In b' (lBlocks L) -> In x (lCode L b) -> In x (lCode L b') -> b = b').
(** An operand and everything it is computed from. *)
Inductive needs : nat -> nat -> Prop :=
| n_self x : needs x x
| n_arg x y z : In (VUser y) (args x) -> needs y z -> needs x z.
Definition noPhi (x : nat) : Prop := forall y, needs x y -> op y <> OPhi.

(** A for-loop with an induction variable at a given place:
    for (i = ...; i < ... or ... < i; i = i + ... or i = ... + i or i = i - ...). *)
Variable ivar : value.
(** A value of the induction variable which is loaded in the loop and may be converted. *)
Inductive readsInduction : value -> Prop :=
| ri_load x : op x = OLoad -> args x = [ivar] -> inLoop x -> readsInduction (VUser x)
| ri_cast x v : op x = OCast -> args x = [v] -> readsInduction v -> inLoop x -> readsInduction (VUser x).
(** i + e, e + i or i - e, maybe converted *)
Inductive advances : value -> Prop :=
| ad_left x v e : op x = OBin BAdd \/ op x = OBin BSub -> args x = [v; e] -> readsInduction v -> inLoop x -> advances (VUser x)
| ad_right x v e : op x = OBin BAdd -> args x = [e; v] -> readsInduction v -> inLoop x -> advances (VUser x)
| ad_cast x v : op x = OCast -> args x = [v] -> advances v -> inLoop x -> advances (VUser x).
Record forLoop (ph latch init cmp incr : nat) : Prop := {
  fl_ph : lPreheader L = Some ph;
  fl_latch : lLatch L = Some latch;
  fl_header : In (lHeader L) (lBlocks L);
  fl_latch_in : In latch (lBlocks L);
  fl_differ : lHeader L <> latch;
  (** the initialization is the last memory access before the loop *)
  fl_init : op init = OStore /\ exists v, args init = [v; ivar];
  fl_init_last : exists pre post, lCode L ph = pre ++ init :: post /\
    (forall x, In x post -> accesses C x = [] /\ ~ In (VUser x) (args init));
  (** the comparison is the last one in the header *)
  fl_cmp : exists p a b, op cmp = OCmp p /\ args cmp = [a; b] /\ (readsInduction a \/ readsInduction b);
  fl_cmp_last : exists pre post, lCode L (lHeader L) = pre ++ cmp :: post /\
    (forall x p, In x post -> op x <> OCmp p);
  (** the increment *)
  fl_incr : op incr = OStore /\ In incr (lCode L latch) /\ exists v, args incr = [v; ivar] /\ advances v;
  (** the variable is not an argument, its address is computed outside of the loop *)
  fl_ivar : match ivar with
            | VUser x => op x = OAlloca /\ (forall y, In (VUser y) (args x) -> False)
            | VGlobal _ => True
            | _ => False
            end;
  (** a node is known for accesses to the variable *)
  fl_node : forall x idx, op x = OLoad /\ args x = [ivar] /\ idx = 0%nat \/
      op x = OStore /\ (exists v, args x = [v; ivar]) /\ idx = 1%nat ->
    exists n, cDim C x idx = Some n /\ cUnreach C n (cInduct C) = false /\ cUnreach C (cInduct C) n = false }.

(** The loop runs as it is described: the variable is equal to the start value before the
    loop, it is start + n * step after n iterations, the loop is continued while the
    predicate holds for the variable and the end value, the end value and the step are the
    same in all iterations. *)
Definition runsAs (ph latch cmp : nat) (traits : nat -> option bool) (r : info) : Prop :=
  exists start end_ e (negated : bool) p,
    rStart r = Some start /\ rEnd r = Some end_ /\ rStep r = Some (e, negated) /\ rPred r = Some p /\
    forall before s0, exec (fun _ => Some false) (lCode L ph) before s0 -> covers (cInduct C) (ev s0 ivar) ->
    let i := fun s => mem s (ev s0 ivar) in
    let step := fun s => if negated then - ev s e else ev s e in
    let its := iterations traits latch cmp s0 in
    let header := exec traits (lCode L (lHeader L)) in
    i s0 = ev s0 start /\
    (forall n s, its n s -> (n > 0)%nat -> wrap (i s) = wrap (ev s0 start + Z.of_nat n * step s)) /\
    (forall n s h, its n s -> header s h -> regs h cmp = if holds p (i s) (ev h end_) then 1 else 0) /\
    (forall n s h n' s' h', its n s -> header s h -> its n' s' -> header s' h' -> ev h end_ = ev h' end_) /\
    (forall n s n' s', its n s -> (n > 0)%nat -> its n' s' -> (n' > 0)%nat -> step s = step s').
End Machine.
