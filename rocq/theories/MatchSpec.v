(** What is expected from the search for pairs of expressions and instructions. *)
From Coq Require Import PeanoNat Bool List Permutation.
From Verif Require Import MatchModel.
Import ListNotations.

Definition someOrder (order : list (loc * list nat) -> list (loc * list nat)) : Prop :=
  forall l, Permutation (order l) l.

(** Pairs are one to one, both parts of a pair have the same location. *)
Definition C79_pairs_claim : Prop :=
  forall asserts strict revMacro presumed order is ts s,
    someOrder order -> run asserts strict revMacro presumed order is ts = Done s ->
    NoDup (map fst (sMatch s)) /\ NoDup (map snd (sMatch s)) /\
    forall n i, In (n, i) (sMatch s) ->
      exists t, In t ts /\ tNode t = n /\
        In (i, Some (if tMacro t then presumed (tLoc t) else tLoc t)) is.

(** Items from macros: if an expansion and a location of it have the same number of items and
    instructions then these are paired in the order of appearance, otherwise nothing is paired.
    Items of a strict search are paired if there is a single one.  The location belongs to the
    expansion only. *)
Definition nodesAt (ts : list item) (r : loc) : list nat :=
  map tNode (filter (fun t => tMacro t && Nat.eqb (tLoc t) r) ts).
Definition instrsAt (is : list instruction) (l : loc) : list nat :=
  map fst (filter (fun i => match snd i with Some l' => Nat.eqb l' l | None => false end) is).
Definition C79_macro_claim : Prop :=
  forall asserts strict presumed order is ts s r,
    someOrder order -> run asserts strict (negb strict) presumed order is ts = Done s ->
    NoDup (map tNode ts) -> NoDup (map fst is) ->
    (forall t, In t ts -> tMacro t = true -> presumed (tLoc t) = presumed r -> tLoc t = r) ->
    (forall t, In t ts -> tMacro t = false -> tLoc t <> presumed r) ->
    let ns := nodesAt ts r in
    let xs := instrsAt is (presumed r) in
    forall n, In n ns ->
      forall i, In (n, i) (sMatch s) <->
        length ns = length xs /\ (strict = true -> length ns = 1) /\
        exists k, nth_error ns k = Some n /\ nth_error xs k = Some i.

(** Accesses to memory and calls which correspond to an expression: its node and a location.  The
    order is the order of execution for each location.  An element of an array has the innermost
    subscript as its node (the comment at lines 141-143). *)
Fixpoint innermost (e : expr) : nat :=
  match e with
  | Sub id (Sub _ _ _ as b) _ => innermost b
  | _ => idOf e
  end.
(* [value]: a value is used or an address only *)
Fixpoint accesses (e : expr) (value : bool) : list (nat * loc) :=
  match e with
  | Const _ _ => []
  | Ref id l isArray => if value && negb isArray then [(id, l)] else []
  | Sub _ b i =>
      accesses b (match b with Sub _ _ _ => false | _ => true end) ++ accesses i true
      ++ (if value then [(innermost e, exprLoc e)] else [])
  | Assign id l compound lhs rhs =>
      accesses rhs true ++ accesses lhs false
      ++ (if compound then [(idOf lhs, l)] else []) ++ [(id, l)]
  | IncDec id l e => accesses e false ++ [(idOf e, l); (id, l)]
  | Deref id l e => accesses e true ++ (if value then [(id, l)] else [])
  | AddrOf _ _ e => accesses e false
  | Bin _ _ e1 e2 => accesses e1 true ++ accesses e2 true
  | Call id l args => accesses args true ++ [(id, l)]
  end.
Fixpoint ids (e : expr) : list nat :=
  match e with
  | Const id _ | Ref id _ _ => [id]
  | Sub id b i => id :: ids b ++ ids i
  | Assign id _ _ a b | Bin id _ a b => id :: ids a ++ ids b
  | IncDec id _ a | Deref id _ a | AddrOf id _ a | Call id _ a => id :: ids a
  end.
Fixpoint locs (e : expr) : list loc :=
  match e with
  | Const _ l | Ref _ l _ => [l]
  | Sub _ b i => locs b ++ locs i
  | Assign _ l _ a b | Bin _ l a b => l :: locs a ++ locs b
  | IncDec _ l a | Deref _ l a | AddrOf _ l a | Call _ l a => l :: locs a
  end.
Definition isLvalue (e : expr) : bool :=
  match e with Ref _ _ _ | Sub _ _ _ | Deref _ _ _ => true | _ => false end.
Definition isSub (e : expr) : bool := match e with Sub _ _ _ => true | _ => false end.
(* several subscripts are applied to an array *)
Fixpoint rootIsArray (e : expr) : bool :=
  match e with Ref _ _ isArray => isArray | Sub _ b _ => rootIsArray b | _ => false end.
Fixpoint typed (e : expr) : Prop :=
  match e with
  | Const _ _ | Ref _ _ _ => True
  | Sub _ b i => (isSub b = true -> rootIsArray b = true) /\ typed b /\ typed i
  | Assign _ _ _ a b => isLvalue a = true /\ typed a /\ typed b
  | IncDec _ _ a | AddrOf _ _ a => isLvalue a = true /\ typed a
  | Deref _ _ a | Call _ _ a => typed a
  | Bin _ _ a b => typed a /\ typed b
  end.
Fixpoint noSubs (e : expr) : Prop :=
  match e with
  | Const _ _ | Ref _ _ _ => True
  | Sub _ _ _ => False
  | Assign _ _ _ a b | Bin _ _ a b => noSubs a /\ noSubs b
  | IncDec _ _ a | Deref _ _ a | AddrOf _ _ a | Call _ _ a => noSubs a
  end.
(* elements are not incremented *)
Fixpoint noIncSub (e : expr) : Prop :=
  match e with
  | Const _ _ | Ref _ _ _ => True
  | IncDec _ _ a => isSub a = false /\ noIncSub a
  | Sub _ a b | Assign _ _ _ a b | Bin _ _ a b => noIncSub a /\ noIncSub b
  | Deref _ _ a | AddrOf _ _ a | Call _ _ a => noIncSub a
  end.
(* there are no subscripts in the second and next indexes *)
Fixpoint simpleIndex (e : expr) : Prop :=
  match e with
  | Const _ _ | Ref _ _ _ => True
  | Sub _ a b => (isSub a = true -> noSubs b) /\ simpleIndex a /\ simpleIndex b
  | Assign _ _ _ a b | Bin _ _ a b => simpleIndex a /\ simpleIndex b
  | IncDec _ _ a | Deref _ _ a | AddrOf _ _ a | Call _ _ a => simpleIndex a
  end.

(** Instructions of an expression which are not removed by optimizations; numbers are positions. *)
Definition instructionsOf (kept : nat -> bool) (e : expr) : list instruction :=
  map (fun p => (fst p, Some (snd (snd p))))
    (filter (fun p => kept (fst p))
      (combine (seq 0 (length (accesses e true))) (accesses e true))).

(** An instruction is paired with the expression it is generated for.  [gInc]: elements are not
    incremented, [gIndex]: there are no subscripts in the second and next indexes,
    [gKept]: accesses are not optimized away. *)
Definition C79_exact_claim (gInc gIndex gKept : bool) : Prop :=
  forall asserts strict revMacro presumed order e kept,
    someOrder order -> typed e -> NoDup (ids e) -> NoDup (locs e) ->
    (gInc = true -> noIncSub e) -> (gIndex = true -> simpleIndex e) ->
    (gKept = true -> forall k, kept k = true) ->
    exists s,
      run asserts strict revMacro presumed order (instructionsOf kept e) (visits e) = Done s /\
      forall n k, In (n, k) (sMatch s) <->
        kept k = true /\ exists l, nth_error (accesses e true) k = Some (n, l).

(** Expressions which are reported as unmatched are not matched.  [gNoInc]: there are no
    increments. *)
Fixpoint noIncs (e : expr) : Prop :=
  match e with
  | Const _ _ | Ref _ _ _ => True
  | IncDec _ _ a => False
  | Assign _ _ c a b => c = false /\ noIncs a /\ noIncs b
  | Sub _ a b | Bin _ _ a b => noIncs a /\ noIncs b
  | Deref _ _ a | AddrOf _ _ a | Call _ _ a => noIncs a
  end.
Definition C79_unmatched_claim (gNoInc : bool) : Prop :=
  forall asserts strict revMacro presumed order e is s,
    someOrder order -> typed e -> NoDup (ids e) -> (gNoInc = true -> noIncs e) ->
    run asserts strict revMacro presumed order is (visits e) = Done s ->
    forall n i, In (n, i) (sMatch s) -> ~ In n (sUnmatched s).
