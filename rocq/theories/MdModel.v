(** Model of the search for variables which hold a value,
    /repo/lib/Analysis/Memory/Utils.cpp:71-152, 221-382 (findDomDbgValues, findAliasBlocks, findMetadata,
    mayAliasFragments, hasDeref) and /repo/lib/Analysis/Memory/DIMemoryLocation.cpp:117-134 (get).

    Simplifications.  Maps of DIMemoryLocation are lists in the order of intrinsics in the function (the
    order of a DenseMap depends on addresses).  Offsets and sizes do not overflow.  A variable which is
    inlined several times is a single variable, as in operator== (DIMemoryLocation.h:162-164).  The search
    for addresses of variables (dbg.declare) is omitted.  The dominator tree is an argument. *)
From Coq Require Import List Bool Arith ZArith.
Import ListNotations.

(** ** Functions in the intermediate representation *)
Inductive value := VReg (n : nat) | VConst (z : Z).
Definition value_eqb (a b : value) : bool :=
  match a, b with
  | VReg n, VReg m => n =? m
  | VConst z, VConst w => Z.eqb z w
  | _, _ => false
  end.
(** Operations of a DWARF expression other than DW_OP_LLVM_fragment: none, DW_OP_plus_uconst with
    DW_OP_stack_value, DW_OP_deref *)
Inductive dwop := OpNone | OpPlus (z : Z) | OpDeref.
(** Offset and size, in bits *)
Definition frag := option (nat * nat).
Definition frag_eqb (a b : frag) : bool :=
  match a, b with
  | None, None => true
  | Some (o, s), Some (o', s') => (o =? o') && (s =? s')
  | _, _ => false
  end.
(** llvm.dbg.value *)
Record dbg := Dbg { dVal : value; dVar : nat; dOp : dwop; dFrag : frag }.
Inductive inst :=
| IDbg (d : dbg)
| IDef (n : nat) (uses : list value)
| IPhi (n : nat) (inc : list (nat * value))
| IUse (uses : list value).
(** A basic block: instructions, values used in the terminator, successors.  The terminator is at the
    position after the last element of [bIns]. *)
Record block := Block { bIns : list inst; bTerm : list value; bSucc : list nat }.
Definition func := list block.
Definition pos := (nat * nat)%type.
Definition blk (f : func) (b : nat) : block := nth b f (Block [] [] []).
Definition instAt (f : func) (p : pos) : option inst := nth_error (bIns (blk f (fst p))) (snd p).
Definition preds (f : func) (b : nat) : list nat :=
  filter (fun c => existsb (Nat.eqb b) (bSucc (blk f c))) (seq 0 (length f)).

(** ** Locations of variables: DIMemoryLocation.h:67-164 *)
Record loc := Loc { lVar : nat; lFrag : frag }.
Definition loc_eqb (a b : loc) : bool := (lVar a =? lVar b) && frag_eqb (lFrag a) (lFrag b).
(** DIMemoryLocation.cpp:117-126: only a fragment remains of an expression *)
Definition getLoc (d : dbg) : loc := Loc (dVar d) (dFrag d).
(** Utils.cpp:368-373 *)
Definition hasDeref (d : dbg) : bool := match dOp d with OpDeref => true | _ => false end.
(** Utils.cpp:376-393 *)
Definition mayAliasFragments (l r : frag) : bool :=
  match l, r with
  | Some (lo, ls), Some (ro, rs) =>
    if (ls =? 0) || (rs =? 0) then false
    else (lo =? ro) || ((lo <? ro) && (ro <? lo + ls)) || ((ro <? lo) && (lo <? ro + rs))
  | _, _ => true
  end.

(** All intrinsics of a function with their positions *)
Fixpoint dbgsFrom (b i : nat) (l : list inst) : list (pos * dbg) :=
  match l with
  | [] => []
  | IDbg d :: l => ((b, i), d) :: dbgsFrom b (S i) l
  | _ :: l => dbgsFrom b (S i) l
  end.
Definition allDbgs (f : func) : list (pos * dbg) :=
  flat_map (fun b => dbgsFrom b 0 (bIns (blk f b))) (seq 0 (length f)).

Section Search.
Variable f : func.
(** DominatorTree::dominates for different blocks *)
Variable domB : nat -> nat -> bool.

(** DominatorTree::dominates for instructions *)
Definition domI (p q : pos) : bool :=
  if fst p =? fst q then snd p <? snd q else domB (fst p) (fst q).

(** try_emplace and insert, Utils.cpp:109-110 *)
Fixpoint insertDom (l : loc) (b : nat) (m : list (loc * list nat)) : list (loc * list nat) :=
  match m with
  | [] => [(l, [b])]
  | (k, bs) :: m => if loc_eqb k l then (k, if existsb (Nat.eqb b) bs then bs else bs ++ [b]) :: m
                    else (k, bs) :: insertDom l b m
  end.
(** Utils.cpp:92-113; a variable of an intrinsic is never null *)
Definition findDomDbgValues (V : value) (users : list pos) : list (loc * list nat) :=
  fold_left (fun m (e : pos * dbg) =>
               let '(p, d) := e in
               if value_eqb (dVal d) V && negb (hasDeref d) && forallb (fun u => domI p u) users
               then insertDom (getLoc d) (fst p) m else m)
            (allDbgs f) [].

(** Utils.cpp:138-147: the intrinsic itself or some intrinsic after it associates the location and the
    value *)
Definition restored (V : value) (l : loc) (tail : list inst) : bool :=
  existsb (fun i => match i with IDbg d => value_eqb (dVal d) V && loc_eqb (getLoc d) l | _ => false end) tail.
(** Utils.cpp:122-151 *)
Definition isAlias (V : value) (l : loc) (b : nat) : bool :=
  existsb (fun e : pos * dbg =>
             let '(p, d) := e in
             (dVar d =? lVar l) && negb (hasDeref d) && mayAliasFragments (dFrag d) (lFrag l)
             && negb (restored V l (skipn (snd p) (bIns (blk f b)))))
          (dbgsFrom b 0 (bIns (blk f b))).

(** Utils.cpp:236-247: the last intrinsic for the location before the user, [None] if the beginning of
    the block is reached; the list is reversed *)
Fixpoint scanBack (V : value) (l : loc) (r : list inst) : option bool :=
  match r with
  | [] => None
  | IDbg d :: r => if negb (hasDeref d) && loc_eqb (getLoc d) l then Some (value_eqb (dVal d) V)
                   else scanBack V l r
  | _ :: r => scanBack V l r
  end.
(** Utils.cpp:262-271, [None] if the loop is broken *)
Fixpoint scanPreds (V : value) (l : loc) (dom : list nat) (ps wl vis : list nat) : option (list nat * list nat) :=
  match ps with
  | [] => Some (wl, vis)
  | p :: ps =>
    if existsb (Nat.eqb p) vis then scanPreds V l dom ps wl vis
    else if isAlias V l p then None
    else if existsb (Nat.eqb p) dom then scanPreds V l dom ps wl vis
    else scanPreds V l dom ps (p :: wl) (p :: vis)
  end.
(** Utils.cpp:252-277, the head of the list is the back of the vector; [None] is exhausted fuel *)
Fixpoint walk (fuel : nat) (V : value) (l : loc) (dom wl vis : list nat) : option bool :=
  match wl with
  | [] => Some true
  | b :: wl =>
    match fuel with
    | 0 => None
    | S fuel =>
      match scanPreds V l dom (preds f b) wl vis with
      | None => Some false
      | Some (wl, vis) => walk fuel V l dom wl vis
      end
    end
  end.
(** Utils.cpp:234-280: a single user *)
Definition reached (V : value) (l : loc) (dom : list nat) (u : pos) : bool :=
  match scanBack V l (rev (firstn (snd u) (bIns (blk f (fst u))))) with
  | Some r => r
  | None => match walk (S (length f)) V l dom [fst u] [] with Some r => r | None => false end
  end.
(** Utils.cpp:225-283, [IsReached] is initially false *)
Definition findLocs (V : value) (users : list pos) : list (loc * list nat) :=
  filter (fun e => match users with [] => false | _ => forallb (reached V (fst e) (snd e)) users end)
         (findDomDbgValues V users).
(** Utils.cpp:294-300: true if the first location is met first *)
Fixpoint firstInBlock (V : value) (l other : loc) (is : list inst) : bool :=
  match is with
  | [] => true
  | IDbg d :: is =>
    if value_eqb (dVal d) V && negb (hasDeref d) then
      if loc_eqb (getLoc d) l then true
      else if loc_eqb (getLoc d) other then false
      else firstInBlock V l other is
    else firstInBlock V l other is
  | _ :: is => firstInBlock V l other is
  end.
(** Utils.cpp:286-305 *)
Definition isFirst (V : value) (locs : list (loc * list nat)) (l : loc) (dom : list nat) : bool :=
  forallb (fun e : loc * list nat =>
             loc_eqb (fst e) l ||
             forallb (fun bb => forallb (fun lb => if lb =? bb then firstInBlock V l (fst e) (bIns (blk f lb))
                                                   else domB lb bb) dom) (snd e)) locs.
(** Utils.cpp:221-308 *)
Definition findMetadata (V : value) (users : list pos) : list loc * option loc :=
  let locs := findLocs V users in
  (map fst locs,
   match find (fun e => isFirst V locs (fst e) (snd e)) locs with Some e => Some (fst e) | None => None end).

(** ** The search for all users of a value, Utils.cpp:344-363 *)
Definition usesIn (V : value) (us : list value) : bool := existsb (value_eqb V) us.
(** The block which contains a definition of a value *)
Definition defBlock (V : value) : option nat :=
  match V with
  | VConst _ => None
  | VReg n => find (fun b => existsb (fun i => match i with IDef m _ | IPhi m _ => m =? n | _ => false end)
                                     (bIns (blk f b))) (seq 0 (length f))
  end.
Fixpoint usersFrom (V : value) (b i : nat) (l : list inst) : list pos :=
  match l with
  | [] => []
  | IDbg _ :: l => usersFrom V b (S i) l
  | IDef _ us :: l | IUse us :: l => (if usesIn V us then [(b, i)] else []) ++ usersFrom V b (S i) l
  | IPhi _ inc :: l =>
    (if usesIn V (map snd inc)
     then [match defBlock V with Some d => (d, length (bIns (blk f d))) | None => (b, i) end] else [])
    ++ usersFrom V b (S i) l
  end.
Definition usersOf (V : value) : list pos :=
  flat_map (fun b => usersFrom V b 0 (bIns (blk f b))
                     ++ (if usesIn V (bTerm (blk f b)) then [(b, length (bIns (blk f b)))] else []))
           (seq 0 (length f)).
Definition findMetadataAll (V : value) : list loc * option loc := findMetadata V (usersOf V).
End Search.
