(** Model of the search for pairs of expressions of a source code and instructions,
    /repo/include/tsar/Analysis/AST/Matcher.h 98-147 (findIRForLocation, matchInMacro),
    /repo/lib/Analysis/Clang/ExpressionMatcher.cpp 69-220 (VisitFromMacro, VisitItem,
    TraverseStmt, isInArraySubscriptBaseAndAccessKind) and 258-307 (runOnFunction).

    Simplifications.
    - Nodes of a tree, instructions and locations are numbers.  A location is the one which is
      compared with a location of an instruction (a presumed location); for a node from a macro
      it is a raw encoding of a location of expansion.
    - Expressions are built from references to variables, subscripts, assignments, increments,
      dereferences, '&', other operators, calls with known callees and constants.  Casts are
      omitted (they are skipped when parents are inspected, 225-227).  Arguments of a call are a
      single expression ([Bin] for several ones).  Declarations, members, returns, sizeof and
      parentheses are not modelled. *)
From Coq Require Import PeanoNat Bool List.
Import ListNotations.

Definition loc := nat.
Inductive result (A : Type) := Crash | Done (a : A).
Arguments Crash {A}. Arguments Done {A}.

(** TinyPtrVector: a single element is stored without a vector. *)
Record queue := Queue { qVec : bool; qItems : list nat }.
Definition push (q : queue) (i : nat) : queue :=
  Queue (qVec q || negb (length (qItems q) =? 0)) (qItems q ++ [i]).
Definition irMap := loc -> option queue.
Definition upd {A} (M : loc -> option A) (l : loc) (q : A) : loc -> option A :=
  fun l' => if Nat.eqb l l' then Some q else M l'.

(** ExpressionMatcher.cpp 271-291: instructions with locations. *)
Definition instruction : Type := nat * option loc.
Fixpoint collect (is : list instruction) (M : irMap) : irMap :=
  match is with
  | [] => M
  | (i, None) :: is => collect is M
  | (i, Some l) :: is =>
      collect is (upd M l (push (match M l with Some q => q | None => Queue false [] end) i))
  end.
(* 292-293 *)
Definition reverseAll (M : irMap) : irMap :=
  fun l => match M l with Some q => Some (Queue (qVec q) (rev (qItems q))) | None => None end.

(** Matcher.h 98-106, findIRForLocation.  [asserts]: an access to an empty vector is checked. In a
    build without checks it gives a null pointer if there has been at most one element and it is
    an undefined behavior otherwise. *)
Definition findIRForLocation (asserts : bool) (M : irMap) (l : loc) : result (option nat * irMap) :=
  match M l with
  | None => Done (None, M)
  | Some q =>
      match rev (qItems q) with
      | x :: r => Done (Some x, upd M l (Queue (qVec q) (rev r)))
      | [] => if asserts || qVec q then Crash else Done (None, M)
      end
  end.

Record state := State {
  sMap : irMap;                        (* mLocToIR *)
  sMatch : list (nat * nat);           (* mMatcher *)
  sUnmatched : list nat;               (* mUnmatchedAST *)
  sMacro : list (loc * list nat)       (* mLocToMacro *)
}.
(* Bimap::emplace *)
Definition emplace (n i : nat) (B : list (nat * nat)) : list (nat * nat) :=
  if existsb (fun p => Nat.eqb (fst p) n || Nat.eqb (snd p) i) B then B else B ++ [(n, i)].
Fixpoint addMacro (r : loc) (n : nat) (B : list (loc * list nat)) : list (loc * list nat) :=
  match B with
  | [] => [(r, [n])]
  | (r', ns) :: B => if Nat.eqb r r' then (r', ns ++ [n]) :: B else (r', ns) :: addMacro r n B
  end.

(** ExpressionMatcher.cpp 69-99, VisitItem and VisitFromMacro: a node, its location and whether
    it is expanded from a macro. *)
Record item := Item { tNode : nat; tLoc : loc; tMacro : bool }.
Definition visitItem (asserts : bool) (t : item) (s : state) : result state :=
  if tMacro t
  then Done (State (sMap s) (sMatch s) (sUnmatched s) (addMacro (tLoc t) (tNode t) (sMacro s)))
  else
    match findIRForLocation asserts (sMap s) (tLoc t) with
    | Crash => Crash
    | Done (Some i, M) => Done (State M (emplace (tNode t) i (sMatch s)) (sUnmatched s) (sMacro s))
    | Done (None, M) => Done (State M (sMatch s) (tNode t :: sUnmatched s) (sMacro s))
    end.
Fixpoint visitItems (asserts : bool) (ts : list item) (s : state) : result state :=
  match ts with
  | [] => Done s
  | t :: ts =>
      match visitItem asserts t s with Crash => Crash | Done s => visitItems asserts ts s end
  end.

(** Matcher.h 117-147, matchInMacro.  [presumed] converts raw locations. *)
(* 142-146: elements are taken from ends of both vectors *)
Fixpoint pairUp (ns is : list nat) (B : list (nat * nat)) : list (nat * nat) :=
  match ns, is with
  | n :: ns, i :: is => pairUp ns is (emplace n i B)
  | _, _ => B
  end.
Definition matchOne (strict : bool) (presumed : loc -> loc) (m : loc * list nat) (s : state) : state :=
  let unmatched := State (sMap s) (sMatch s) (rev (snd m) ++ sUnmatched s) (sMacro s) in
  match sMap s (presumed (fst m)) with
  | None => unmatched
  | Some q =>
      if negb (length (qItems q) =? length (snd m)) || (strict && (1 <? length (snd m)))
      then unmatched
      else State (upd (sMap s) (presumed (fst m)) (Queue (qVec q) []))
             (pairUp (rev (snd m)) (rev (qItems q)) (sMatch s)) (sUnmatched s) (sMacro s)
  end.
Definition matchInMacro (strict : bool) (presumed : loc -> loc) (ms : list (loc * list nat))
  (s : state) : state := fold_left (fun s m => matchOne strict presumed m s) ms s.

(** The whole search.  [order] is an order of elements of a hash table; [revMacro]: vectors of
    mLocToMacro are reversed (LoopMatcher.cpp 313-314). *)
Definition run (asserts strict revMacro : bool) (presumed : loc -> loc)
  (order : list (loc * list nat) -> list (loc * list nat))
  (is : list instruction) (ts : list item) : result state :=
  match visitItems asserts ts (State (reverseAll (collect is (fun _ => None))) [] [] []) with
  | Crash => Crash
  | Done s =>
      let ms := order (sMacro s) in
      let ms := if revMacro then map (fun m => (fst m, rev (snd m))) ms else ms in
      Done (matchInMacro strict presumed ms s)
  end.

(** Expressions: each node has a number and a location of its operator or name. *)
Inductive expr :=
| Const (id : nat) (l : loc)
| Ref (id : nat) (l : loc) (isArray : bool)
| Sub (id : nat) (base idx : expr)
| Assign (id : nat) (l : loc) (compound : bool) (lhs rhs : expr)
| IncDec (id : nat) (l : loc) (e : expr)
| Deref (id : nat) (l : loc) (e : expr)
| AddrOf (id : nat) (l : loc) (e : expr)
| Bin (id : nat) (l : loc) (e1 e2 : expr)
| Call (id : nat) (l : loc) (args : expr).
Definition idOf (e : expr) : nat :=
  match e with
  | Const id _ | Ref id _ _ | Sub id _ _ | Assign id _ _ _ _ | IncDec id _ _ | Deref id _ _
  | AddrOf id _ _ | Bin id _ _ _ | Call id _ _ => id
  end.
(* getExprLoc(): a subscript has a location of its base *)
Fixpoint exprLoc (e : expr) : loc :=
  match e with
  | Sub _ b _ => exprLoc b
  | Const _ l | Ref _ l _ | Assign _ l _ _ _ | IncDec _ l _ | Deref _ l _
  | AddrOf _ l _ | Bin _ l _ _ | Call _ l _ => l
  end.

(** 210-231, isInArraySubscriptBaseAndAccessKind.  A parent and a position in it: a base or an
    index of a subscript, the left side of an assignment, an operand of '&', anything else.  An
    argument of a call and an operand of an increment are stashed instead of their parents (113,
    155), so these are not distinguished. *)
Inductive frame := FBase | FIndex | FLhs | FAddr | FOther.
Inductive access := AStore | AAddr | AOther.
Fixpoint inBaseAndKind (fs : list frame) (inBase : bool) : bool * access :=
  match fs with
  | FBase :: fs => inBaseAndKind fs true
  | FIndex :: _ => (inBase, AOther)
  | FLhs :: _ => (inBase, AStore)
  | FAddr :: _ => (inBase, AAddr)
  | FOther :: _ => (inBase, AOther)
  | [] => (inBase, AOther)
  end.
Definition isOther (a : access) : bool := match a with AOther => true | _ => false end.

(** 108-206, TraverseStmt: visited items and a value of mHasChildArraySubscript. *)
Definition vis (n : nat) (l : loc) : item := Item n l false.
Fixpoint traverse (e : expr) (fs : list frame) (has : bool) : list item * bool :=
  match e with
  | Const _ _ => ([], has)
  | Ref id l isArray =>
      (* 164-173 *)
      if isArray && fst (inBaseAndKind fs false) then ([], has) else ([vis id l], has)
  | Sub id b i =>
      (* 133-150 *)
      let (v1, has) := traverse b (FBase :: fs) has in
      let (v2, has) := traverse i (FIndex :: fs) has in
      let (inBase, ak) := inBaseAndKind fs false in
      (v1 ++ v2 ++ (if negb has && isOther ak then [vis id (exprLoc e)] else []), inBase)
  | Assign id l compound lhs rhs =>
      (* 180-186 *)
      let (v1, has) := traverse lhs (FLhs :: fs) has in
      let (v2, has) := traverse rhs (FOther :: fs) has in
      ((if compound then [vis (idOf lhs) l] else []) ++ vis id l :: v1 ++ v2, has)
  | IncDec id l e =>
      (* 151-160 *)
      let (v, has) := traverse e (FOther :: fs) has in
      (vis (idOf e) l :: vis id l :: v, has)
  | Deref id l e =>
      (* 174-179 *)
      let (v, has) := traverse e (FOther :: fs) has in (vis id l :: v, has)
  | AddrOf id l e => traverse e (FAddr :: fs) has
  | Bin id l e1 e2 =>
      let (v1, has) := traverse e1 (FOther :: fs) has in
      let (v2, has) := traverse e2 (FOther :: fs) has in (v1 ++ v2, has)
  | Call id l args =>
      (* 104-118 *)
      let (v, has) := traverse args (FOther :: fs) has in (vis id l :: v, has)
  end.
Definition visits (e : expr) : list item := fst (traverse e [] false).
