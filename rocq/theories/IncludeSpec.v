(** Files, includes and declarations (C103). *)
From Coq Require Import List Bool Arith.
From Verif Require Import IncludeModel.
Import ListNotations.

(** A file which includes another one has a smaller identifier. *)
Definition ordered (c : context) : Prop := forall f p, inc c f = Some p -> p < f.
(** [r] is the file [f] or it includes [f], possibly by means of other files. *)
Inductive includes (inc : nat -> option nat) : nat -> nat -> Prop :=
| i_same : forall f, includes inc f f
| i_step : forall f p r, inc f = Some p -> includes inc p r -> includes inc f r.
(** Files of the tree are files with declarations and files which include them, each file is
    stored once and is a child of the file which includes it (once), each declaration is a child of
    its file. *)
Definition C103_tree_claim : Prop :=
  forall c, ordered c ->
    let t := reconstructAll [c] in
    (forall f, In f (map fst (files t)) <-> exists d g, In (d, Some g) (decls c) /\ includes (inc c) g f) /\
    NoDup (map fst (files t)) /\
    (forall p f, In (p, f) (edges t) <-> In f (map fst (files t)) /\ inc c f = Some p) /\
    NoDup (edges t) /\
    owned t = flat_map (fun x => match snd x with Some f => [(fst x, f)] | None => [] end) (decls c) /\
    internals t = flat_map (fun x => match snd x with Some _ => [] | None => [fst x] end) (decls c).
(** A root of a file is the file which includes it and is not included. *)
Definition C103_root_claim : Prop :=
  forall c f, ordered c -> let t := reconstructAll [c] in In f (map fst (files t)) ->
    includes (inc c) f (findRoot (S f) f t) /\ inc c (findRoot (S f) f t) = None /\
    In (findRoot (S f) f t, 0) (roots [c] t).
(** The number of top-level files.  [gInternal]: there are no internal declarations. *)
Definition C103_count_claim (gInternal : bool) : Prop :=
  forall c, ordered c -> (gInternal = true -> forall d, ~ In (d, None) (decls c)) ->
    let t := reconstructAll [c] in
    exists l, rootSize [c] t = length l /\ NoDup l /\
      forall f, In f l <-> In f (map fst (files t)) /\ inc c f = None.
(** A file which is found for a declaration is the file of this declaration (in its context).
    [gOne]: there is one context. *)
Definition C103_find_claim (gOne : bool) : Prop :=
  forall cs k c d f, (gOne = true -> length cs <= 1) ->
    (forall c, In c cs -> ordered c) -> NoDup (map fst (flat_map decls cs)) ->
    nth_error cs k = Some c -> In (d, Some f) (decls c) -> find d (reconstructAll cs) = Some (f, k).
