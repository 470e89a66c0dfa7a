(** The bytes of a memory set. *)
From Coq Require Import ZArith Bool List Lia.
From Verif Require Import RangeModel RangeSpec MemSetModel.
Import ListNotations.
Open Scope Z_scope.

(** The byte [b] of the object [p] is covered. *)
Definition setCovers (s : mset) (p : nat) (b : Z) : Prop :=
  exists l r, In (Some p, l) s /\ In r l /\ covers r b.
(** Each object has one array view (element size and dimension sizes). *)
Definition views := nat -> Z * list Z.
Definition viewsOk (v : views) : Prop := forall p, viewOk (fst (v p)) (snd (v p)).
Definition locOk (v : views) (p : nat) (r : range) : Prop :=
  shapeOk p (fst (v p)) (snd (v p)) r.
(** A well-formed set: one entry per object, entries are not empty, each
    location belongs to the object of its entry. *)
Definition setOk (v : views) (s : mset) : Prop :=
  NoDup (map fst s) /\
  forall q l, In (q, l) s -> exists p, q = Some p /\ l <> [] /\ Forall (locOk v p) l.
(** Sets built by insertions. *)
Inductive built (v : views) : mset -> Prop :=
| built_empty : built v []
| built_insert s p r : built v s -> locOk v p r -> built v (msInsert s r).
