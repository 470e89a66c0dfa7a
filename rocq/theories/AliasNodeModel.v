(** Model of reference counting and forwarding of alias nodes:
    /repo/include/tsar/Analysis/Memory/EstimateMemory.h 687-745, 815-825,
    905-925, 1128-1140, 1214-1240 and 1269-1272,
    /repo/lib/Analysis/Memory/EstimateMemory.cpp 407-427, 657-669.

    Simplifications.
    - A node is a number; the pool is the list of allocated nodes.  To access a
      node which is not in the pool is undefined behaviour; it is [None], like a
      failed assertion and a decrement of a zero counter.
    - Lists of children and of locations of a node do not own nodes and are
      absent.  Conditions of assertions are checked without side effects.
    - A set of unknown accesses of a node is reduced to a flag whether it is not
      empty.
    - Recursive functions have fuel, [None] means also that it is exhausted. *)
From Coq Require Import Arith Bool List.
Import ListNotations.

Definition node := nat.
Definition loc := nat.
Inductive kind := KTop | KEstimate | KUnknown.
Definition kind_eqb (a b : kind) : bool :=
  match a, b with
  | KTop, KTop | KEstimate, KEstimate | KUnknown, KUnknown => true
  | _, _ => false
  end.

Record state := State {
  pool : list node;
  kinds : node -> kind;
  par : node -> option node;       (* mParent *)
  fwd : node -> option node;       (* mForward *)
  ref : node -> nat;               (* mRefCount *)
  unk : node -> bool;              (* mUnknownInsts is not empty *)
  locs : list loc;                 (* estimate memory locations *)
  lnode : loc -> option node       (* EstimateMemory::mNode *)
}.
Definition upd {A} (f : nat -> A) (x : nat) (v : A) : nat -> A :=
  fun y => if y =? x then v else f y.
Definition alive (s : state) (n : node) : bool := existsb (Nat.eqb n) (pool s).
Definition without (n : node) (l : list node) : list node :=
  filter (fun y => negb (y =? n)) l.
Definition setPool (s : state) (l : list node) : state :=
  State l (kinds s) (par s) (fwd s) (ref s) (unk s) (locs s) (lnode s).
Definition setPar (s : state) (n : node) (v : option node) : state :=
  State (pool s) (kinds s) (upd (par s) n v) (fwd s) (ref s) (unk s) (locs s) (lnode s).
Definition setFwd (s : state) (n : node) (v : option node) : state :=
  State (pool s) (kinds s) (par s) (upd (fwd s) n v) (ref s) (unk s) (locs s) (lnode s).
Definition setRef (s : state) (n : node) (v : nat) : state :=
  State (pool s) (kinds s) (par s) (fwd s) (upd (ref s) n v) (unk s) (locs s) (lnode s).
Definition setUnk (s : state) (n : node) (v : bool) : state :=
  State (pool s) (kinds s) (par s) (fwd s) (ref s) (upd (unk s) n v) (locs s) (lnode s).
Definition setKind (s : state) (n : node) (v : kind) : state :=
  State (pool s) (upd (kinds s) n v) (par s) (fwd s) (ref s) (unk s) (locs s) (lnode s).
Definition setLoc (s : state) (e : loc) (v : option node) : state :=
  State (pool s) (kinds s) (par s) (fwd s) (ref s) (unk s) (locs s) (upd (lnode s) e v).

(** EstimateMemory.h 725 *)
Definition retain (s : state) (n : node) : option state :=
  if alive s n then Some (setRef s n (S (ref s n))) else None.

(** EstimateMemory.h 1269-1272 and EstimateMemory.cpp 663-669.  The field
    mForward is not cleared here because the node is destroyed. *)
Fixpoint release (fuel : nat) (s : state) (n : node) : option state :=
  match fuel with
  | O => None
  | S fuel =>
    if alive s n then
      match ref s n with
      | O => None
      | S r =>
        let s := setRef s n r in
        if r =? 0 then
          match fwd s n with
          | Some m =>
            match release fuel s m with
            | Some s =>
              if alive s n then Some (setPool s (without n (pool s))) else None
            | None => None
            end
          | None => Some (setPool s (without n (pool s)))
          end
        else Some s
      end
    else None
  end.

(** EstimateMemory.h 697-706 *)
Fixpoint getForwardedTarget (fuel : nat) (s : state) (n : node) : option (state * node) :=
  match fuel with
  | O => None
  | S fuel =>
    if alive s n then
      match fwd s n with
      | None => Some (s, n)
      | Some m =>
        match getForwardedTarget fuel s m with
        | None => None
        | Some (s, d) =>
          if d =? m then Some (s, d)
          else
            match retain s d with
            | None => None
            | Some s =>
              match release fuel s m with
              | None => None
              | Some s => if alive s n then Some (setFwd s n (Some d), d) else None
              end
            end
        end
      end
    else None
  end.
Definition isForwarding (s : state) (n : node) : bool :=
  match fwd s n with Some _ => true | None => false end.

(** EstimateMemory.cpp 418-427.  The result is a state and a parent. *)
Definition getParent (fuel : nat) (s : state) (n : node) : option (state * option node) :=
  match par s n with
  | None => Some (s, None)
  | Some o =>
    if alive s o then
      if isForwarding s o then
        match getForwardedTarget fuel s o with
        | None => None
        | Some (s, d) =>
          if alive s n then
            match retain (setPar s n (Some d)) d with
            | None => None
            | Some s => option_map (fun s => (s, Some d)) (release fuel s o)
            end
          else None
        end
      else Some (s, Some o)
    else None
  end.

(** EstimateMemory.cpp 407-416 *)
Definition getAliasNode (fuel : nat) (s : state) (e : loc) : option (state * option node) :=
  match lnode s e with
  | None => Some (s, None)
  | Some o =>
    if alive s o then
      if isForwarding s o then
        match getForwardedTarget fuel s o with
        | None => None
        | Some (s, d) =>
          match retain (setLoc s e (Some d)) d with
          | None => None
          | Some s => option_map (fun s => (s, Some d)) (release fuel s o)
          end
        end
      else Some (s, Some o)
    else None
  end.

(** EstimateMemory.h 714-722 *)
Definition setParent (fuel : nat) (s : state) (n p : node) : option state :=
  if alive s n then
    match
      match par s n with
      | Some o => release fuel s o
      | None => Some s
      end
    with
    | None => None
    | Some s => if alive s n then retain (setPar s n (Some p)) p else None
    end
  else None.

(** EstimateMemory.h 1131-1140: n is an address of a new node *)
Definition makeNode (fuel : nat) (s : state) (n : node) (k : kind) (p : node)
    : option state :=
  if alive s n then None
  else setParent fuel
         (setPool (setUnk (setRef (setFwd (setPar (setKind s n k) n None) n None) n 0) n false)
                  (pool s ++ [n])) n p.

(** EstimateMemory.h 1214-1221 *)
Definition setAliasNode (fuel : nat) (s : state) (e : loc) (n : node) : option state :=
  match
    match lnode s e with
    | Some o => release fuel s o
    | None => Some s
    end
  with
  | None => None
  | Some s => retain (setLoc s e (Some n)) n
  end.

(* the node which a chain of forwarding nodes ends with *)
Fixpoint target (fuel : nat) (s : state) (n : node) : option node :=
  match fuel with
  | O => None
  | S fuel =>
    if alive s n then
      match fwd s n with None => Some n | Some m => target fuel s m end
    else None
  end.
Definition parentTarget (fuel : nat) (s : state) (n : node) : option (option node) :=
  match par s n with
  | None => Some None
  | Some o => option_map Some (target fuel s o)
  end.
Definition same (a b : option (option node)) : bool :=
  match a, b with
  | Some (Some x), Some (Some y) => x =? y
  | Some None, Some None => true
  | _, _ => false
  end.

(** EstimateMemory.h 733-745: an is merged in n *)
Definition mergeNodeInImp (fuel : nat) (s : state) (n an : node) : option state :=
  if alive s n && alive s an && negb (isForwarding s an) && negb (isForwarding s n) &&
     (same (parentTarget fuel s an) (parentTarget fuel s n) ||
      same (parentTarget fuel s an) (Some (Some n))) &&
     negb (an =? n) && kind_eqb (kinds s n) (kinds s an)
  then
    match retain (setFwd s an (Some n)) n with
    | None => None
    | Some s =>
      match getParent fuel s an with
      | Some (s, Some p) =>
        (* a list of children of p and neighbours of an are changed *)
        if alive s p && alive s an then Some s else None
      | _ => None
      end
    end
  else None.

(** EstimateMemory.h 815-819 and 909-923, 1223-1240 *)
Definition mergeNodeIn (fuel : nat) (s : state) (n an : node) : option state :=
  match mergeNodeInImp fuel s n an with
  | None => None
  | Some s =>
    match kinds s n with
    | KUnknown =>
      if negb (unk s n) then
        if unk s an then
          match retain (setUnk (setUnk s n true) an false) n with
          | None => None
          | Some s => release fuel s an
          end
        else Some s
      else if unk s an then release fuel (setUnk s an false) an
      else Some s
    | _ => Some s
    end
  end.

(** EstimateMemory.cpp 657-660: an unknown access is added to a node *)
Definition pushUnknown (s : state) (n : node) : option state :=
  if alive s n then
    match (if unk s n then Some s else retain s n) with
    | None => None
    | Some s => Some (setUnk s n true)
    end
  else None.
