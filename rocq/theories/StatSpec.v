(** Specification of C98. *)
From Coq Require Import PeanoNat Bool List Permutation.
From Verif Require Import StatModel.
Import ListNotations.

(** A project: extensions, variables, functions, units. *)
Record project := Project { pHeaders : list nat; pSources : list nat; pVars : nat * nat; pFuncs : list func; pUnits : list unit }.
Definition answer (p : project) : stat := answerStatistic (pHeaders p) (pSources p) (pVars p) (pFuncs p) (pUnits p).

Definition count {A} (P : A -> bool) (l : list A) : nat := length (filter P l).
Definition sum (l : list nat) : nat := fold_right Nat.add 0 l.
(** Units with AST. *)
Definition active (p : project) : list unit := filter uInstance (pUnits p).
(** All files of a project. *)
Definition files (p : project) : list (nat * nat) := flat_map uFiles (active p).
Definition isKind (p : project) (k : nat) (f : nat * nat) : bool :=
  let h := existsb (Nat.eqb (snd f)) (pHeaders p) in
  let s := existsb (Nat.eqb (snd f)) (pSources p) in
  match k with 0 => h | 1 => negb h && s | 2 => negb h && negb s | _ => false end.
Definition stored (k : nat) (m : list (nat * nat)) : nat := sum (map snd (filter (fun x => fst x =? k) m)).
Definition dec2 (a b : nat * nat) : {a = b} + {a <> b}.
Proof. decide equality; apply Nat.eq_dec. Defined.
(** Files of each kind are counted. Guard: units have no common files. *)
Definition C98_files_claim (gs : bool) : Prop :=
  forall p k, (gs = true -> NoDup (files p)) ->
    stored k (sFiles (answer p)) = count (isKind p k) (nodup dec2 (files p)).
(** A kind is stored once. *)
Definition C98_kinds_claim : Prop := forall p, NoDup (map fst (sFiles (answer p))).

(** Variables. *)
Definition C98_variables_claim : Prop :=
  forall p, active p <> [] -> sVars (answer p) = Some (pVars p).

(** Functions. Guard: a single unit. *)
Definition single (p : project) : Prop := length (active p) = 1.
Definition C98_functions_claim (g1 : bool) : Prop :=
  forall p, active p <> [] -> (g1 = true -> single p) ->
    sFuncs (answer p) = count (fun f => negb (fIntrinsic f)) (pFuncs p).

(** A function is declared by a user in a unit. *)
Definition declared (f : func) (u : unit) : bool :=
  match uDecl u (fName f) with Some b => b && negb (fIntrinsic f) | None => false end.
Definition user (p : project) (f : func) : bool := existsb (declared f) (active p).
(** A function is declared in a single unit. *)
Definition separate (p : project) : Prop := forall f, In f (pFuncs p) -> count (declared f) (active p) <= 1.
Definition C98_user_claim (gs : bool) : Prop :=
  forall p, (gs = true -> separate p) -> sUser (answer p) = count (user p) (pFuncs p).

(** Loops of user functions. *)
Definition loops (p : project) : list loop :=
  flat_map (fun f => if user p f && fBody f then fMatched f else []) (pFuncs p).
Definition unmatched (p : project) : nat :=
  sum (map (fun f => if user p f && fBody f then fUnmatched f else 0) (pFuncs p)).
(** Guard: a single unit. *)
Definition C98_loops_claim (g1 : bool) : Prop :=
  forall p, active p <> [] -> separate p -> (g1 = true -> single p) ->
    sLoops (answer p) = Some (count lId (loops p), count (fun l => negb (lId l)) (loops p) + unmatched p).
(** Guard: functions are declared in separate units. *)
Definition C98_parallel_claim (gs : bool) : Prop :=
  forall p, (gs = true -> separate p) -> sParallel (answer p) = count lParallel (loops p).

(** Traits of a memory location: an address access is the only trait of memory without accesses. *)
Definition traitsOf (t : list nat) : list nat :=
  if existsb (Nat.eqb tNoAccess) t then (if existsb (Nat.eqb tAddress) t then [tAddress] else []) else t.
Definition memory (p : project) : list (list nat) :=
  flat_map nMem (filter nCovered (flat_map lNodes (filter lId (loops p)))).
(** Guard: all accessed locations of a node have the same traits as a node. *)
Definition uniform (p : project) : Prop :=
  forall n t x, In n (flat_map lNodes (loops p)) -> In t (nMem n) -> ~ In tNoAccess t ->
    count_occ Nat.eq_dec (nDesc n) x = count_occ Nat.eq_dec t x.
Definition C98_traits_claim (gs gu : bool) : Prop :=
  forall p x, (gs = true -> separate p) -> (gu = true -> uniform p) ->
    count_occ Nat.eq_dec (sTraits (answer p)) x = count_occ Nat.eq_dec (flat_map traitsOf (memory p)) x.

(** The answer does not depend on the order of units. Guard: a number of loops in a single unit only. *)
Definition sameStat (gl : bool) (a b : stat) : Prop :=
  (forall k, stored k (sFiles a) = stored k (sFiles b)) /\ sVars a = sVars b /\ sFuncs a = sFuncs b /\ sUser a = sUser b
  /\ Permutation (sTraits a) (sTraits b) /\ sParallel a = sParallel b /\ (gl = true -> sLoops a = sLoops b).
Definition C98_order_claim (gl : bool) : Prop :=
  forall h s v fs us us', Permutation us us' ->
    sameStat gl (answer (Project h s v fs us)) (answer (Project h s v fs us')).
