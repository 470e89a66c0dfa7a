(** Model of the test whether locations cover a location:
    /repo/include/tsar/Analysis/Memory/MemoryCoverage.h.

    Simplifications.
    - Numbers of alias nodes are the numbering of TreeModel.v, relations of
      locations are functions of EMForestModel.v.
    - std::map is a list sorted by keys.
    - [None] is a failed assertion, a dereference of the end iterator or
      exhausted fuel. *)
From Coq Require Import ZArith Bool List Arith.
From Verif Require Import TreeModel EMForestModel.
Import ListNotations.
Local Open Scope Z_scope.

(** An entry of the map: a preorder number, a reverse postorder number, a size. *)
Record entry := Entry { enPre : Z; enRpo : Z; enSize : Z }.
(* std::map::emplace: an element with the same key is not replaced *)
Fixpoint emplace (l : list entry) (e : entry) : list entry :=
  match l with
  | [] => [e]
  | x :: l' =>
    if enPre e <? enPre x then e :: l
    else if enPre e =? enPre x then l
    else x :: emplace l' e
  end.
Definition wrap64 (x : Z) : Z := x mod 2 ^ 64.

Section Cover.
Variable fuel : nat.
Variable f : forest.                  (* the estimate memory tree *)
Variable m : numbering.               (* Numbers *)
Variable node : em -> nat.            (* getAliasNode *)
Variable size : em -> option Z.       (* getSize, None if it is unknown *)

(** MemoryCoverage.h 65-79: [inl] is a result of the function. *)
Fixpoint collect (E : em) (l : list em) (acc : list entry) : option (bool + list entry) :=
  match l with
  | [] => Some (inr acc)
  | i :: l =>
    match isDescendantOf fuel f E i with
    | None => None
    | Some true => Some (inl true)
    | Some false =>
      match isUnreachable fuel f E i with
      | None => None
      | Some true => collect E l acc
      | Some false =>
        match size i with
        | None => Some (inl true)
        | Some s =>
          match findNumbers m (node i) with
          | None => None
          | Some v => collect E l (emplace acc (Entry (numPre v) (numRevPost v) s))
          end
        end
      end
    end
  end.
(** MemoryCoverage.h 88-97 *)
Fixpoint total (root : Z) (l : list entry) (cur tot : Z) : Z :=
  match l with
  | [] => wrap64 (tot + cur)
  | e :: l =>
    if root <? enRpo e then total root l (Z.max cur (enSize e)) tot
    else total root l (enSize e) (wrap64 (tot + cur))
  end.
(** MemoryCoverage.h 44-100 *)
Definition cover (E : em) (l : list em) : option bool :=
  match l with
  | [] => Some false
  | _ =>
    match collect E l [] with
    | None => None
    | Some (inl b) => Some b
    | Some (inr map) =>
      match size E with
      | None => Some false
      | Some s =>
        match map with
        | [] => None
        | e :: map => Some (s <=? total (enRpo e) map (enSize e) 0)
        end
      end
    end
  end.
End Cover.
