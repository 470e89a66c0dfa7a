(** Model of the search for recursion in the source-level inliner,
    /repo/lib/Transform/Clang/Inline.cpp:775-821 (findRecursion, checkTemplates), 878-894 (the last check),
    898-908 and 629-641 (recursion of compile).

    Simplifications.  Functions are numbers.  A set is a list, the order of elements in a DenseSet is an
    argument.  The first four checks are a property of a template, checks of instantiations succeed. *)
From Coq Require Import List Bool Arith.
Import ListNotations.

(** A template: a function, IsNeedToInline (Inline.h:142-144), failure of one of the first checks, callees of
    calls which should be inlined in the order of calls *)
Record templ := Templ { tFun : nat; tNeed : bool; tBad : bool; tCalls : list nat }.
(** DenseSet::count *)
Definition mem (x : nat) (l : list nat) : bool := existsb (Nat.eqb x) l.

Section R.
(** mTs is a map which is sorted by locations, Inline.h:329-330 *)
Variable ts : list templ.
(** Template::getCalls *)
Definition calls (f : nat) : list nat := match find (fun t => tFun t =? f) ts with Some t => tCalls t | None => [] end.
(** The order of elements of a DenseSet *)
Variable order : list nat -> list nat.

(** 790-792 and 798-800 *)
Definition callees (need : nat -> bool) (f : nat) : list nat := filter need (calls f).
(** 797-799: the flag is overwritten for each call *)
Definition needToAdd (need : nat -> bool) (f : nat) : bool := fold_left (fun _ g => need g) (calls f) false.
(** isStepRecursion, 782-789: the first caller which is a callee *)
Definition stepRecursion (callers cs : list nat) : option nat := find (fun c => mem c cs) (order callers).
(** 793-805; [None] is exhausted fuel, [Some None] means that nothing is inserted *)
Fixpoint search (fuel : nat) (need : nat -> bool) (callers cs : list nat) : option (option nat) :=
  match fuel with
  | 0 => None
  | S fuel =>
    match cs with
    | [] => Some None
    | _ =>
      match stepRecursion callers cs with
      | Some c => Some (Some c)
      | None => search fuel need (callers ++ filter (needToAdd need) cs) (flat_map (callees need) cs)
      end
    end
  end.
(** 775-808 *)
Definition visit (fuel : nat) (need : nat -> bool) (acc : option (list nat)) (t : templ) : option (list nat) :=
  match acc with
  | None => None
  | Some rs =>
    if mem (tFun t) rs then Some rs
    else match search fuel need [tFun t] (callees need (tFun t)) with
         | None => None
         | Some None => Some rs
         | Some (Some c) => Some (c :: rs)
         end
  end.
(** The loop over templates, 777 *)
Definition findRecursion (fuel : nat) (need : nat -> bool) : option (list nat) :=
  fold_left (visit fuel need) ts (Some []).

(** ** checkTemplates, 810-821.  The set of recursive functions is a static variable, it is initialized when
    the last check is performed for the first time, 880-887. *)
(** isNeedToInline before checks *)
Definition initial (f : nat) : bool := match find (fun t => tFun t =? f) ts with Some t => tNeed t | None => false end.
(** disableInline, Inline.h:144 *)
Definition disable (need : nat -> bool) (f : nat) : nat -> bool := fun g => if g =? f then false else need g.
(** Flags of templates and the static variable *)
Record st := St { sNeed : nat -> bool; sRec : option (list nat) }.
(** 813-819 *)
Definition checkOne (fuel : nat) (acc : option st) (t : templ) : option st :=
  match acc with
  | None => None
  | Some s =>
    if negb (sNeed s (tFun t)) then Some s
    else if tBad t then Some (St (disable (sNeed s) (tFun t)) (sRec s))
    else match (match sRec s with Some rs => Some rs | None => findRecursion fuel (sNeed s) end) with
         | None => None
         | Some rs => Some (St (if mem (tFun t) rs then disable (sNeed s) (tFun t) else sNeed s) (Some rs))
         end
  end.
(** 812-820 *)
Definition checkTemplates (fuel : nat) : option (nat -> bool) :=
  match fold_left (checkOne fuel) ts (Some (St initial None)) with Some s => Some (sNeed s) | None => None end.

(** The recursion of compile: calls of enabled functions are expanded *)
Fixpoint expand (fuel : nat) (need : nat -> bool) (f : nat) : bool :=
  match fuel with
  | 0 => false
  | S fuel => forallb (expand fuel need) (callees need f)
  end.
End R.
