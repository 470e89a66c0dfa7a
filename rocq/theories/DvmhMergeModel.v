(** Model of regions around parallel loops and of merging of neighbouring regions,
    /repo/lib/Transform/Clang/DVMHSMAutoPar.cpp 207-289 (exploitParallelism, a new region),
    325-420 (mergeRegions) and 422-478 (mergeSiblingRegions).

    Simplifications.
    - Loops and variables are numbers.  A child of a scope is a parallel loop with a region or any
      other statement (a loop without a parallel directive or without a region included).
    - Directives attached to an entry and an exit of a loop are kept separately.  Blocks which
      become empty are not distinguished from absent ones.
    - A search for a directive which is absent gives a null handle, an access to it is a crash. *)
From Coq Require Import PeanoNat Bool List.
Import ListNotations.

(** Results of analysis of a loop: PL[L].isHostOnly(), ReadOccurred, WriteOccurred, Private. *)
Record info := Info { nHost : bool; nIn : list nat; nOut : list nat; nPriv : list nat }.
(* PragmaRegion *)
Record region := Region { rHost : bool; rIn : list nat; rOut : list nat; rPriv : list nat }.
(* directives of a loop: PragmaActual and PragmaRegion at an entry, ParallelMarker<PragmaRegion>
   and PragmaGetActual at an exit *)
Record place := Place {
  pActual : option (list nat);
  pRegion : option region;
  pMarker : bool;
  pGet : option (list nat)
}.
Definition layout := nat -> place.
Definition set (L : layout) (i : nat) (p : place) : layout := fun j => if Nat.eqb i j then p else L j.

Definition nonEmpty (vs : list nat) : option (list nat) := match vs with [] => None | _ => Some vs end.
(** 207-289 *)
Definition newRegion (n : info) : place :=
  if nHost n then Place None (Some (Region true [] [] [])) true None
  else Place (nonEmpty (nIn n)) (Some (Region false (nIn n) (nOut n) (nPriv n))) true (nonEmpty (nOut n)).
Definition initial (ns : nat -> info) : layout := fun i => newRegion (ns i).

(** 325-420, mergeRegions *)
Definition orEmpty (o : option (list nat)) : list nat := match o with Some vs => vs | None => [] end.
(* 330-346: a directive is added if it is absent *)
Definition addActual (i : nat) (L : layout) : layout :=
  set L i (Place (Some (orEmpty (pActual (L i)))) (pRegion (L i)) (pMarker (L i)) (pGet (L i))).
Definition addGet (i : nat) (L : layout) : layout :=
  set L i (Place (pActual (L i)) (pRegion (L i)) (pMarker (L i)) (Some (orEmpty (pGet (L i))))).
(* 394-405: [last] is the loop with MergedGetActual *)
Definition removeEnd (last i : nat) (L : layout) : option layout :=
  if pMarker (L i)
  then
    let L := set L last (Place (pActual (L last)) (pRegion (L last)) (pMarker (L last))
                           (Some (orEmpty (pGet (L last)) ++ orEmpty (pGet (L i))))) in
    Some (set L i (Place (pActual (L i)) (pRegion (L i)) false None))
  else None.
(* 406-416: [first] is the loop with MergedRegion and MergedActual *)
Definition removeStart (first i : nat) (L : layout) : option layout :=
  match pRegion (L i), pRegion (L first) with
  | Some r, Some m =>
      let m := Region (rHost m) (rIn m ++ rIn r) (rOut m ++ rOut r) (rPriv m ++ rPriv r) in
      let L := set L first (Place (Some (orEmpty (pActual (L first)) ++ orEmpty (pActual (L i))))
                              (Some m) (pMarker (L first)) (pGet (L first))) in
      Some (set L i (Place None None (pMarker (L i)) (pGet (L i))))
  | _, _ => None
  end.
Definition bind {A B} (o : option A) (f : A -> option B) : option B :=
  match o with Some a => f a | None => None end.
(* 417-420 *)
Fixpoint mergeMiddle (first last : nat) (is : list nat) (L : layout) : option layout :=
  match is with
  | [] => Some L
  | i :: is => bind (removeEnd last i L) (fun L => bind (removeStart first i L) (mergeMiddle first last is))
  end.
Definition mergeRegions (ms : list nat) (L : layout) : option layout :=
  match ms with
  | first :: rest =>
      let last := List.last rest first in
      match pRegion (L first) with
      | None => None
      | Some _ =>
          if pMarker (L last)
          then
            let L := addGet last (addActual first L) in
            bind (removeEnd last first L) (fun L =>
            bind (mergeMiddle first last (removelast rest) L) (removeStart first last))
          else None
      end
  | [] => None
  end.

(** 422-478, mergeSiblingRegions: loops to merge, IsHostOnly. *)
Record state := State { sMerge : list nat; sHost : bool; sLayout : layout }.
Definition flush (s : state) : option layout :=
  if 1 <? length (sMerge s) then mergeRegions (sMerge s) (sLayout s) else Some (sLayout s).
Definition hostOf (L : layout) (i : nat) : bool :=
  match pRegion (L i) with Some r => rHost r | None => false end.
Definition visitChild (c : option nat) (s : state) : option state :=
  match c with
  | Some i =>
      let host := hostOf (sLayout s) i in
      match sMerge s with
      | [] => Some (State [i] host (sLayout s))
      | _ =>
          if eqb host (sHost s)
          then Some (State (sMerge s ++ [i]) (sHost s) (sLayout s))
          else bind (flush s) (fun L => Some (State (sMerge s ++ [i]) host L))
      end
  | None => bind (flush s) (fun L => Some (State [] (sHost s) L))
  end.
Fixpoint visitChildren (cs : list (option nat)) (s : state) : option state :=
  match cs with
  | [] => Some s
  | c :: cs => bind (visitChild c s) (visitChildren cs)
  end.
Definition mergeSiblings (cs : list (option nat)) (L : layout) : option layout :=
  bind (visitChildren cs (State [] false L)) flush.
