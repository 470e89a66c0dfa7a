(** Meaning of loop nests and of results of analysis, which are used to interchange loops. *)
From Coq Require Import ZArith List Bool.
From Verif Require Import CanonModel CanonSpec InterchangeModel.
Import ListNotations.
Local Open Scope Z_scope.

(** * Structure of a nest *)
(** Statements of a body without braces *)
Fixpoint flatten (s : stmt) : list stmt :=
  match s with
  | SBlock l => flat_map flatten l
  | s => [s]
  end.
(** [nest s fs b]: [s] is a nest of loops [fs] with the body [b]; there are only
    braces between heads of loops *)
Inductive nest : stmt -> list nat -> stmt -> Prop :=
| nest_last f b : nest (SFor f b) [f] b
| nest_for f body s fs b : flatten body = [s] -> nest s fs b -> nest (SFor f body) (f :: fs) b.
(** A for-statement [f] with a body [b] inside a statement *)
Inductive inside (f : nat) (b : stmt) : stmt -> Prop :=
| in_self : inside f b (SFor f b)
| in_for g body : inside f b body -> inside f b (SFor g body)
| in_block l s : In s l -> inside f b s -> inside f b (SBlock l)
| in_other l s : In s l -> inside f b s -> inside f b (SOther l).

(** * Execution of a nest *)
Definition memory := Z -> Z.
(** Memory and numbers of current iterations of loops *)
Record state := mkState { mem : memory; cnt : nat -> Z }.
Definition updZ (m : memory) (a z : Z) : memory := fun x => if x =? a then z else m x.
Definition updN (k : nat -> Z) (f : nat) (z : Z) : nat -> Z := fun g => if Nat.eqb g f then z else k g.
Section Machine.
Variable C : ctx.
Variable info : nat -> forInfo.
Variables globalAddr argVal allocAddr constVal : nat -> Z.
(** arithmetic operations *)
Variable compute : opcode -> list Z -> option Z.
(** result of a call, it may depend on memory *)
Variable callSem : nat -> list Z -> memory -> Z -> Prop.
Variable nary : nat -> list Z -> Z.
Variable varAddr : nat -> Z.
(** comparison in the head of a loop, wrap-around of its variable *)
Variable goOn : nat -> Z -> Z -> bool.
Variable norm : nat -> Z -> Z.
(** the body, [None] if it does not end *)
Variable B : memory -> option memory.

Notation op := (fun x => iOp (cInst C x)).
Notation args := (fun x => iArgs (cInst C x)).
(** Value of an expression *)
Inductive denotes (m : memory) : value -> Z -> Prop :=
| d_const z : denotes m (VConst z) z
| d_global g : denotes m (VGlobal g) (globalAddr g)
| d_arg a : denotes m (VArg a) (argVal a)
| d_constExpr x : op x = OConstExpr -> denotes m (VUser x) (constVal x)
| d_alloca x : op x = OAlloca -> denotes m (VUser x) (allocAddr x)
| d_load x p a : op x = OLoad -> args x = [p] -> denotes m p a -> denotes m (VUser x) (m a)
| d_compute x zs z :
    match op x with OBin _ | OCmp _ | OCast | OPure _ => True | _ => False end ->
    denotesL m (args x) zs -> compute (op x) zs = Some z -> denotes m (VUser x) z
| d_call x f zs z : op x = OCall f -> denotesL m (args x) zs -> callSem f zs m z -> denotes m (VUser x) z
with denotesL (m : memory) : list value -> list Z -> Prop :=
| d_nil : denotesL m [] []
| d_cons v z vs zs : denotes m v z -> denotesL m vs zs -> denotesL m (v :: vs) (z :: zs).
Inductive denotesS (m : memory) (k : nat -> Z) : scev -> Z -> Prop :=
| s_const z : denotesS m k (SCst z) z
| s_unknown v z : denotes m v z -> denotesS m k (SUnknown v) z
| s_rec l a b x y : denotesS m k a x -> denotesS m k b y -> denotesS m k (SAddRec l a b) (x + k l * y)
| s_nary o ss zs : denotesSL m k ss zs -> denotesS m k (SNary o ss) (nary o zs)
with denotesSL (m : memory) (k : nat -> Z) : list scev -> list Z -> Prop :=
| s_nil : denotesSL m k [] []
| s_cons s z ss zs : denotesS m k s z -> denotesSL m k ss zs -> denotesSL m k (s :: ss) (z :: zs).
Definition startIs (f : nat) (m : memory) (z : Z) : Prop := exists v, fStart (info f) = Some v /\ denotes m v z.
Definition endIs (f : nat) (m : memory) (z : Z) : Prop := exists v, fEnd (info f) = Some v /\ denotes m v z.
Definition stepIs (f : nat) (m : memory) (k : nat -> Z) (z : Z) : Prop := exists s, fStep (info f) = Some s /\ denotesS m k s z.
Definition addrOf (f : nat) : Z := varAddr (fVar (info f)).

(** for (i = start; i < end; i = i + step) body *)
Inductive loopRel (f : nat) (body : state -> state -> Prop) : state -> state -> Prop :=
| lr_end st e : endIs f (mem st) e -> goOn f (mem st (addrOf f)) e = false -> loopRel f body st st
| lr_next st st1 st2 e d :
    endIs f (mem st) e -> goOn f (mem st (addrOf f)) e = true -> body st st1 -> stepIs f (mem st1) (cnt st1) d ->
    loopRel f body (mkState (updZ (mem st1) (addrOf f) (norm f (mem st1 (addrOf f) + d))) (updN (cnt st1) f (cnt st1 f + 1))) st2 ->
    loopRel f body st st2.
(** a nest with given heads *)
Fixpoint run (hs : list nat) (st st' : state) : Prop :=
  match hs with
  | [] => exists m, B (mem st) = Some m /\ st' = mkState m (cnt st)
  | f :: hs => exists z, startIs f (mem st) z /\ loopRel f (run hs) (mkState (updZ (mem st) (addrOf f) z) (updN (cnt st) f 0)) st'
  end.

(** * Results of analysis *)
Variable covers : nat -> Z -> Prop.
(** loops of the nest, from the outer one *)
Variable fs : list nat.
(** the state before the nest *)
Variable m0 : memory.
Variable k0 : nat -> Z.
(** memory which is read (before it is written) and written in an iteration *)
Variables R W : list Z -> Z -> Prop.
(** variables of reductions *)
Variable red : Z -> option (Z -> Z -> Z).

(** Number of iterations of a loop and values of its variable, if it is evaluated before the nest *)
Fixpoint after (f : nat) (s d : Z) (n : nat) : Z := match n with O => s | S n => norm f (after f s d n + d) end.
Definition valueAt (f : nat) (k z : Z) : Prop := exists s d, startIs f m0 s /\ stepIs f m0 k0 d /\ z = after f s d (Z.to_nat k).
Definition trip (f : nat) (N : Z) : Prop := exists s e d,
  startIs f m0 s /\ endIs f m0 e /\ stepIs f m0 k0 d /\ 0 <= N /\
  (forall j, 0 <= j < N -> goOn f (after f s d (Z.to_nat j)) e = true) /\ goOn f (after f s d (Z.to_nat N)) e = false.
(** Iterations of the nest *)
Definition inSpace (ks : list Z) : Prop := Forall2 (fun f k => exists N, trip f N /\ 0 <= k < N) fs ks.
Definition isVarOf (gs : list nat) (x : Z) : Prop := exists f, In f gs /\ x = addrOf f.
Definition written (x : Z) : Prop := exists ks, inSpace ks /\ W ks x.
(** Memory states inside the nest *)
Definition similar (m : memory) : Prop := forall x, ~ written x -> ~ isVarOf fs x -> m x = m0 x.
Definition atIter (ks : list Z) (m : memory) : Prop := Forall2 (fun f k => valueAt f k (m (addrOf f))) fs ks.
(** The body accesses only memory from [R] and [W], it does not write variables of loops *)
Definition bodyRight : Prop :=
  (forall ks x, inSpace ks -> W ks x \/ R ks x -> ~ isVarOf fs x) /\
  (forall ks m n x, inSpace ks -> similar m -> atIter ks m -> B m = Some n -> ~ W ks x -> n x = m x) /\
  (forall ks m m', inSpace ks -> similar m -> atIter ks m -> similar m' -> atIter ks m' -> (forall x, R ks x -> m x = m' x) ->
    (B m = None <-> B m' = None) /\
    forall n n' x, B m = Some n -> B m' = Some n' -> W ks x ->
      match red x with None => n x = n' x | Some o => exists c, n x = o (m x) c /\ n' x = o (m' x) c end) /\
  (forall x o, red x = Some o -> (forall ks, inSpace ks -> ~ R ks x) /\ (forall a c d, o (o a c) d = o (o a d) c)).
(** Traits of a location in a loop with a number [I] *)
Definition noDepAt (I : nat) (x : Z) : Prop := forall ks ks', inSpace ks -> inSpace ks' ->
  firstn I ks = firstn I ks' -> nth_error ks I <> nth_error ks' I -> W ks x -> ~ W ks' x /\ ~ R ks' x.
Definition privateAt (I : nat) (x : Z) : Prop := forall ks, inSpace ks -> R ks x ->
  exists ks', inSpace ks' /\ firstn (S I) ks' = firstn (S I) ks /\ ks' <> ks /\ W ks' x.
Definition lastAt (x : Z) : Prop := forall ks, inSpace ks -> W ks x /\ ~ R ks x.
Definition traitsRight : Prop := forall I f ts ks x, nth_error fs I = Some f -> fDeps (info f) = Some ts ->
  inSpace ks -> W ks x \/ R ks x ->
  exists t, In t ts /\ tCovered t = true /\ covers (tNode t) x /\ (forall v, tScalar t = Some v -> x = varAddr v) /\
    (tNoDep t = true -> noDepAt I x) /\ (tPrivate t = true -> privateAt I x) /\
    (tReduction t = true -> red x <> None) /\ (tSecond t = true -> lastAt x).
(** Memory which is not used after the nest *)
Definition isPrivate (x : Z) : Prop := exists f ts t, In f fs /\ fDeps (info f) = Some ts /\ In t ts /\ tPrivate t = true /\ covers (tNode t) x.
Definition inductionRight : Prop := forall f ts t v, In f fs -> fDeps (info f) = Some ts -> In t ts ->
  tInduction t = true -> tScalar t = Some v -> covers (tNode t) (varAddr v).
(** Canonical loops: bounds do not depend on memory which is changed in the loop *)
Definition canonicalRight : Prop := forall J f m m' k k', nth_error fs J = Some f -> fCanonical (info f) = true -> similar m -> similar m' ->
  (forall x, ~ written x -> ~ isVarOf (skipn J fs) x -> m x = m' x) -> (forall l, ~ In l (skipn J fs) -> k l = k' l) ->
  (forall z, startIs f m z -> startIs f m' z) /\ (forall z, endIs f m z -> endIs f m' z) /\ (forall z, stepIs f m k z -> stepIs f m' k' z).
(** The alias tree *)
Definition aliasRight : Prop := forall m x p a n, similar m -> op x = OLoad -> args x = [p] -> denotes m p a -> cDim C x 0 = Some n -> covers n a.
(** There are no calls in heads *)
Definition callFree (v : value) : Prop := forall x y f, v = VUser x -> needs C x y -> op y <> OCall f.
Definition headsCallFree : Prop := forall f v, In f fs ->
  fStart (info f) = Some v \/ fEnd (info f) = Some v \/ (exists s, fStep (info f) = Some s /\ In v (unknowns s)) -> callFree v.
End Machine.
