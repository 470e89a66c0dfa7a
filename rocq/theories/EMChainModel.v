(** Model of chains of estimate memory locations:
    /repo/lib/Analysis/Memory/EstimateMemory.cpp 520-624 (add, estimate memory
    locations only), 840-855 (isSamePointer), 870-933 (find), 935-1049 (insert),
    /repo/include/tsar/Analysis/Memory/EstimateMemory.h 430-480, 496-498,
    1180-1211.

    Simplifications.
    - Questions to LLVM are parameters: isSameBase of pointers (EstimateMemory.cpp
      259-294), the alias analysis for one byte at pointers, stripPointer,
      stripToBase, stripMemoryLevel ([None] is 'false') and clarifyUnknownSize.
    - Alias metadata are omitted, the answer of the alias analysis depends on
      pointers only.
    - Alias nodes are omitted: add() does not read them to build locations.
    - A list of ambiguous pointers is identified by a number of the first
      location of a chain.
    - A failed assertion, llvm_unreachable and exhausted fuel are [None]. *)
From Coq Require Import ZArith Bool List.
From Verif Require Import AliasRelModel EMForestModel.
Import ListNotations.
Open Scope Z_scope.

(** llvm::MemoryLocation without metadata *)
Record mloc := MLoc { mPtr : ptr; mSize : size }.

Record tree := Tree {
  tForest : forest;                  (* parents, children, lists of pointers *)
  tSize : em -> size;                (* EstimateMemory::mSize *)
  tExpl : em -> bool;                (* EstimateMemory::mIsExplicit *)
  tAmb : nat -> list ptr;            (* mAmbiguousPool *)
  tBases : ptr -> option (list em);  (* mBases *)
  tCount : nat                       (* number of locations *)
}.
Definition emptyTree : tree :=
  Tree (Forest (fun _ => None) (fun _ => []) (fun _ => O)) (fun _ => SAfter)
    (fun _ => false) (fun _ => []) (fun _ => None) 0.

Definition ptrs (T : tree) (e : em) : list ptr := tAmb T (fBase (tForest T) e).
(** EstimateMemory.h 455-459.  A list of pointers is not empty, see EMChainProof. *)
Definition front (T : tree) (e : em) : ptr := hd O (ptrs T e).
Definition next (T : tree) (e : em) : option em := getNext (tForest T) e.
Definition prev (T : tree) (e : em) : option em := getPrev (tForest T) e.

Definition setForest (T : tree) (f : forest) : tree :=
  Tree f (tSize T) (tExpl T) (tAmb T) (tBases T) (tCount T).
Definition setBases (T : tree) (k : ptr) (l : list em) : tree :=
  Tree (tForest T) (tSize T) (tExpl T) (tAmb T) (upd (tBases T) k (Some l)) (tCount T).
Definition setExplicit (T : tree) (e : em) (b : bool) : tree :=
  Tree (tForest T) (tSize T) (upd (tExpl T) e b) (tAmb T) (tBases T) (tCount T).
Definition addAmb (T : tree) (e : em) (p : ptr) : tree :=
  Tree (tForest T) (tSize T) (tExpl T)
    (upd (tAmb T) (fBase (tForest T) e) (ptrs T e ++ [p])) (tBases T) (tCount T).
(* a new location with the list of pointers b, it has no relatives *)
Definition alloc (T : tree) (b : nat) (s : size) : tree :=
  let f := tForest T in
  Tree (Forest (fParent f) (fKids f) (upd (fBase f) (tCount T) b))
    (upd (tSize T) (tCount T) s) (upd (tExpl T) (tCount T) false) (tAmb T) (tBases T)
    (S (tCount T)).

(* locations which are visited by the loop 'do ... while (Chain = CT::getNext(Chain))' *)
Fixpoint walk (fuel : nat) (f : forest) (x : em) : option (list em) :=
  match fuel with
  | O => None
  | S fuel =>
    match getNext f x with
    | None => Some [x]
    | Some y => option_map (cons x) (walk fuel f y)
    end
  end.
Definition chainOf (T : tree) (x : em) : option (list em) :=
  walk (S (tCount T)) (tForest T) x.

Section Chain.
Variable sameBase : ptr -> ptr -> bool.
Variable alias : ptr -> ptr -> aliasResult.
Variable stripPointer : ptr -> ptr.
Variable stripToBase : mloc -> mloc.
Variable stripMemoryLevel : mloc -> option mloc.
Variable clarify : mloc -> mloc.

(** EstimateMemory.cpp 840-855 *)
Fixpoint samePointer (may : bool) (l : list ptr) (p : ptr) : aliasResult :=
  match l with
  | [] => if may then ARMay else ARNo
  | q :: l =>
    match alias q p with
    | ARMust => ARMust
    | ARMay => samePointer true l p
    | _ => samePointer may l p
    end
  end.

(** EstimateMemory.cpp 912-914 and 991-995, b is Base, s is StripedBase.  The
    result is [Some None] if IsStripedBase is false. *)
Fixpoint strip (fuel : nat) (b s : mloc) : option (option mloc) :=
  match fuel with
  | O => None
  | S fuel =>
    match stripMemoryLevel s with
    | None => Some None
    | Some s => if sameBase (mPtr s) (mPtr b) then strip fuel b s else Some (Some s)
    end
  end.
(** EstimateMemory.cpp 915-926 and 996-1018.  [atEnd] is 'Result == Prev' in the
    first case and '!UpdateChain' in the second one. *)
Definition fits (T : tree) (last : em) (atEnd : bool) (s : option mloc) : bool :=
  match s with
  | None => true
  | Some s =>
    match fParent (tForest T) last with
    | Some p =>
      let c := sizecmp (tSize T p) (mSize s) in
      sameBase (front T p) (mPtr s) && (0 <=? c) && negb ((0 <? c) && atEnd)
    | None => sizecmp (tSize T last) (mSize s) <=? 0
    end
  end.
Definition covers (T : tree) (b : mloc) (e : em) : bool :=
  sizecmp (mSize b) (tSize T e) <=? 0.

(** EstimateMemory.cpp 941-1040, the loop over chains.  [seen] are chains which
    are passed, in the reverse order.  The second component of the result is
    [None] if all chains are passed. *)
Fixpoint insertLoop (fuel : nat) (T : tree) (k : ptr) (b : mloc) (seen rest : list em)
    : option (tree * option (em * bool * bool)) :=
  match rest with
  | [] => Some (T, None)
  | c :: rest =>
    if sameBase (front T c) (mPtr b) then
      match samePointer false (ptrs T c) (mPtr b) with
      | ARNo | ARPartial => insertLoop fuel T k b (c :: seen) rest
      | r =>
        let may := match r with ARMay => true | _ => false end in
        let T := if may then addAmb T c (mPtr b) else T in
        match chainOf T c, strip fuel b b with
        | Some l, Some s =>
          let last := List.last l c in
          let target := find (covers T b) l in
          if fits T last (match target with None => true | _ => false end) s then
            match target with
            | None =>
              let x := tCount T in
              let T := alloc T (fBase (tForest T) last) (mSize b) in
              match spliceNext (tForest T) last (Some x) with
              | None => None
              | Some f => Some (setForest T f, Some (x, true, may))
              end
            | Some u =>
              if sizecmp (mSize b) (tSize T u) =? 0 then Some (T, Some (u, false, may))
              else
                let x := tCount T in
                let T := alloc T (fBase (tForest T) u) (mSize b) in
                match splicePrev (tForest T) u (Some x) with
                | None => None
                | Some f =>
                  let T := setForest T f in
                  let T := if Nat.eqb c u then setBases T k (rev seen ++ x :: rest) else T in
                  Some (T, Some (x, true, may))
                end
            end
          else insertLoop fuel T k b (c :: seen) rest
        | _, _ => None
        end
      end
    else insertLoop fuel T k b (c :: seen) rest
  end.
(** EstimateMemory.cpp 935-1049.  The result is the location, whether it is new
    and whether a pointer was added to a list of ambiguous pointers. *)
Definition insert (fuel : nat) (T : tree) (b : mloc) : option (tree * em * bool * bool) :=
  let k := stripPointer (mPtr b) in
  let l := match tBases T k with Some l => l | None => [] end in
  match insertLoop fuel T k b [] l with
  | None => None
  | Some (T, Some (e, isNew, may)) => Some (T, e, isNew, may)
  | Some (T, None) =>
    let x := tCount T in
    let T := alloc T x (mSize b) in
    let T := Tree (tForest T) (tSize T) (tExpl T) (upd (tAmb T) x [mPtr b])
               (tBases T) (tCount T) in
    Some (setBases T k (l ++ [x]), x, true, false)
  end.

(** EstimateMemory.cpp 520-624, one location for each memory level.  [prevEnd] is
    PrevChainEnd. *)
Fixpoint addLevels (fuel : nat) (T : tree) (b : mloc) (prevEnd : option em) : option tree :=
  match fuel with
  | O => None
  | S fuel' =>
    let b := stripToBase b in
    match insert fuel T b with
    | None => None
    | Some (T, e, isNew, may) =>
      let T := setExplicit T e (tExpl T e || match prevEnd with None => true | _ => false end) in
      let merged :=
        match prevEnd with
        | Some p =>
          if isSameBase (tForest T) p e then Some T
          else
            match fParent (tForest T) p with
            | Some q => if Nat.eqb q e then Some T else None
            | None => option_map (setForest T) (mergeNext (tForest T) p (Some e))
            end
        | None => Some T
        end in
      match merged with
      | None => None
      | Some T =>
        let level prevEnd :=
          match stripMemoryLevel b with
          | None => Some T
          | Some b => addLevels fuel' T b prevEnd
          end in
        if negb isNew && negb may then
          if opt_eqb prevEnd (Some e) then level prevEnd else Some T
        else
          match chainOf T e with
          | None => None
          | Some l => level (Some (List.last l e))
          end
      end
    end
  end.
Definition add (fuel : nat) (T : tree) (l : mloc) : option tree :=
  addLevels fuel T (clarify (stripToBase l)) None.

(** EstimateMemory.cpp 880-932, the loop over chains.  [first] is FirstResult. *)
Fixpoint findLoop (fuel : nat) (T : tree) (b : mloc) (first : option em) (rest : list em)
    : option (option em) :=
  match rest with
  | [] => Some first
  | c :: rest =>
    if sameBase (front T c) (mPtr b) then
      match samePointer false (ptrs T c) (mPtr b) with
      | ARNo => findLoop fuel T b first rest
      | ARMust =>
        match chainOf T c with
        | None => None
        | Some l =>
          match find (covers T b) l with
          | None => findLoop fuel T b first rest
          | Some r =>
            let last := List.last l c in
            let first := match first with None => Some r | _ => first end in
            match strip fuel b b with
            | None => None
            | Some s =>
              if fits T last (Nat.eqb r last) s then Some (Some r)
              else findLoop fuel T b first rest
            end
          end
        end
      | _ => None
      end
    else findLoop fuel T b first rest
  end.
(** EstimateMemory.cpp 870-933 without the cache: [Some None] is nullptr. *)
Definition lookUp (fuel : nat) (T : tree) (b : mloc) : option (option em) :=
  match tBases T (stripPointer (mPtr b)) with
  | None => Some None
  | Some l => findLoop fuel T b None l
  end.
(** mSearchCache *)
Definition mloc_eqb (a b : mloc) : bool :=
  Nat.eqb (mPtr a) (mPtr b) && size_eqb (mSize a) (mSize b).
Definition cache := list (mloc * option em).
Definition cached (c : cache) (b : mloc) : option (option em) :=
  option_map snd (find (fun p => mloc_eqb (fst p) b) c).
(** EstimateMemory.cpp 870-933 with the cache *)
Definition findMem (fuel : nat) (T : tree) (c : cache) (l : mloc)
    : option (option em * cache) :=
  let b := clarify (stripToBase l) in
  match cached c b with
  | Some r => Some (r, c)
  | None =>
    match lookUp fuel T b with
    | None => None
    | Some r => Some (r, (b, r) :: c)
    end
  end.
(** EstimateMemory.cpp 520-624 with the cache, which is cleared at line 525 *)
Definition addMem (fuel : nat) (T : tree) (c : cache) (l : mloc) : option (tree * cache) :=
  option_map (fun T => (T, [])) (add fuel T l).
(** Calls of the methods of a tree: an addition gives no answer. *)
Inductive request := RAdd (l : mloc) | RFind (l : mloc).
Definition serve (fuel : nat) (T : tree) (c : cache) (r : request)
    : option (tree * cache * option (option em)) :=
  match r with
  | RAdd l => option_map (fun '(T, c) => (T, c, None)) (addMem fuel T c l)
  | RFind l => option_map (fun '(a, c) => (T, c, Some a)) (findMem fuel T c l)
  end.
End Chain.

(** EstimateMemory.cpp 557-558 *)
Fixpoint chainStart (fuel : nat) (T : tree) (e : em) : option em :=
  match fuel with
  | O => None
  | S fuel => match prev T e with None => Some e | Some p => chainStart fuel T p end
  end.
