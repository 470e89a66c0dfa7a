(** Model of the correction of traits of alias nodes after privatization (C92):
    lib/Analysis/Memory/PrivateAnalysis.cpp 1099-1155, [mayIgnoreDereference] and
    [PrivateRecognitionPass::sanitizeCombinedTraits]. *)
From Coq Require Import PeanoNat Bool List.
Import ListNotations.

(** Traits of memory: dependences (flow, anti, output), private, other ones.
    Simplification: unit flags (explicit access and so on) and causes of
    dependences are not modelled. *)
Inductive tv := TDep (f a o : bool) | TPrivate | TOther (n : nat).

(** [is_any<trait::Anti, trait::Flow, trait::Output>]. *)
Definition hasDep (t : tv) : bool := match t with TDep f a o => f || a || o | _ => false end.
(** [is<trait::Private>]. *)
Definition isPrivate (t : tv) : bool := match t with TPrivate => true | _ => false end.

(** An estimate memory location: [lLoad] is the alias node of a pointer if the top
    level parent of the location is addressed with a loaded pointer. *)
Record loc := Loc { lLoad : option nat; lTrait : tv }.

(** A node from a dependence set: its number, locations, traits of unknown memory,
    the trait of the node. *)
Record dnode := DNode { nId : nat; nLocs : list loc; nUnknown : list tv; nTrait : tv }.

(** [DS.find_as(Node)]. *)
Definition get (ds : list dnode) (i : nat) : option dnode := find (fun n => nId n =? i) ds.

(** PrivateAnalysis.cpp 1104-1119: the loop of [mayIgnoreDereference]. *)
Fixpoint ignoreLoop (ds : list dnode) (main : option loc) (ls : list loc) : option loc :=
  match ls with
  | [] => main
  | l :: rest =>
      match lLoad l with
      | Some p =>
          match get ds p with
          | None => None
          | Some n => if isPrivate (nTrait n) then ignoreLoop ds main rest else None
          end
      | None =>
          match main with
          | Some _ => None
          | None => ignoreLoop ds (Some l) rest
          end
      end
  end.

Definition mayIgnoreDereference (ds : list dnode) (n : dnode) : option loc :=
  ignoreLoop ds None (nLocs n).

(** [bcl::trait::set(From, To)]: dependences are added to dependences, traits which
    exclude each other are replaced. *)
Definition setTrait (from to : tv) : tv :=
  match from, to with
  | TDep f a o, TDep f' a' o' => TDep (f || f') (a || a') (o || o')
  | _, _ => from
  end.

(** PrivateAnalysis.cpp 1129-1131: a trait is converted to [BitMemoryTrait] and back,
    kinds of dependences are lost (see [classPart] in TraitModel.v). *)
Definition viaBits (t : tv) : tv := if hasDep t then TDep true true true else t.

(** PrivateAnalysis.cpp 1146-1149: the descriptor [Dptr] consists of dependences only
    (line 187), so a location is not changed if the node has no dependences. *)
Definition updateLoc (t : tv) (l : loc) : loc :=
  if hasDep t then Loc (lLoad l) (setTrait t (lTrait l)) else l.

(** PrivateAnalysis.cpp 1124-1153: the body of the loop for a single node. *)
Definition sanitizeNode (ds : list dnode) (n : dnode) : dnode :=
  if (match nUnknown n with [] => true | _ => false end) && (length (nLocs n) =? 1) then n
  else if hasDep (nTrait n) then
    let t := match mayIgnoreDereference ds n with
             | Some l => setTrait (viaBits (lTrait l)) (nTrait n)
             | None => nTrait n
             end in
    DNode (nId n) (map (updateLoc t) (nLocs n)) (nUnknown n) t
  else n.

(** A node of the set is changed in place. *)
Definition sanitizeAt (ds : list dnode) (i : nat) : list dnode :=
  map (fun n => if nId n =? i then sanitizeNode ds n else n) ds.

(** Nodes are visited in the order of a hash table. *)
Definition sanitize (order : list nat) (ds : list dnode) : list dnode :=
  fold_left sanitizeAt order ds.
