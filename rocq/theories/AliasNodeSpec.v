(** What alias nodes must be after any history of operations. *)
From Coq Require Import Arith Bool List.
From Verif Require Import AliasNodeModel.
Import ListNotations.

(** Operations of a tree. *)
Inductive op :=
| OMake (n : node) (k : kind) (p : node)
| OSetParent (n p : node)
| OMerge (n an : node)
| OPushUnknown (n : node)
| OSetAliasNode (e : loc) (n : node)
| OGetAliasNode (e : loc)
| OGetParent (n : node)
| OResolve (n : node).
Definition step (fuel : nat) (s : state) (o : op) : option state :=
  match o with
  | OMake n k p => makeNode fuel s n k p
  | OSetParent n p => setParent fuel s n p
  | OMerge n an => mergeNodeIn fuel s n an
  | OPushUnknown n => pushUnknown s n
  | OSetAliasNode e n => setAliasNode fuel s e n
  | OGetAliasNode e => option_map fst (getAliasNode fuel s e)
  | OGetParent n => option_map fst (getParent fuel s n)
  | OResolve n => option_map fst (getForwardedTarget fuel s n)
  end.
(* an empty tree: the root node 0 only *)
Definition initial (ls : list loc) : state :=
  State [0] (fun _ => KTop) (fun _ => None) (fun _ => None) (fun _ => 0)
        (fun _ => false) ls (fun _ => None).

(** The specification of merges: the node which a node is now a part of. *)
Definition into := node -> node.
Definition merged (w : into) (o : op) : into :=
  match o with
  | OMake n _ _ => fun x => if x =? n then n else w x
  | OMerge n an => fun x => if w x =? an then n else w x
  | _ => w
  end.

(** Who refers to a node: an allocated node which has it as a parent or as a
    target, a location, and a node with unknown accesses refers to itself. *)
Definition referred (s : state) (n : node) : Prop :=
  (exists m, In m (pool s) /\ par s m = Some n) \/
  (exists m, In m (pool s) /\ fwd s m = Some n) \/
  (exists e, In e (locs s) /\ lnode s e = Some n) \/
  unk s n = true.

(** When an operation may be called.  Nodes are existing and are not parts of
    other nodes.  A node must not be kept alive only by that reference which is
    replaced with a reference to it. *)
Definition real (w : into) (s : state) (n : node) : Prop := In n (pool s) /\ w n = n.
Definition parentOf (w : into) (s : state) (n : node) : option node :=
  option_map w (par s n).
Definition allowed (w : into) (s : state) (o : op) : Prop :=
  match o with
  | OMake n _ p => ~ In n (pool s) /\ real w s p
  | OSetParent n p => real w s n /\ real w s p /\ n <> p /\
      (parentOf w s n = Some p ->
         unk s p = true \/ exists e, In e (locs s) /\ lnode s e = Some p)
  | OMerge n an => real w s n /\ real w s an /\ n <> an /\ kinds s n = kinds s an /\
      (exists p, parentOf w s an = Some p /\ p <> an /\ (p = n \/ parentOf w s n = Some p)) /\
      parentOf w s n <> Some an
  | OPushUnknown n => real w s n
  | OSetAliasNode e n => In e (locs s) /\ real w s n /\
      (option_map w (lnode s e) = Some n ->
         unk s n = true \/ exists m, real w s m /\ par s m = Some n)
  | OGetAliasNode e => In e (locs s)
  | OGetParent n => In n (pool s)
  | OResolve n => In n (pool s)
  end.

(** The specification of locations and parents: the node of a location and the
    parent of a node. *)
Definition located (a : loc -> option node) (o : op) : loc -> option node :=
  match o with
  | OSetAliasNode e n => upd a e (Some n)
  | OMerge n an => fun e => if same (Some (a e)) (Some (Some an)) then Some n else a e
  | _ => a
  end.
Definition lifted (b : node -> option node) (o : op) : node -> option node :=
  match o with
  | OMake n _ p | OSetParent n p => upd b n (Some p)
  | OMerge n an => fun x => if same (Some (b x)) (Some (Some an)) then Some n else b x
  | _ => b
  end.

(** A history: each operation is allowed in the state it is called in.  [w] is
    the node which a node is merged in, [a] is a node of a location, [b] is a
    parent of a node. *)
Inductive history (ls : list loc) :
    state -> into -> (loc -> option node) -> (node -> option node) -> Prop :=
| historyStart : history ls (initial ls) (fun x => x) (fun _ => None) (fun _ => None)
| historyStep s w a b o s' : history ls s w a b -> allowed w s o ->
    (exists n, forall fuel, n <= fuel -> step fuel s o = Some s') ->
    history ls s' (merged w o) (located a o) (lifted b o).
