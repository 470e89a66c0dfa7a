(** Specification of C92. *)
From Coq Require Import PeanoNat Bool List Permutation.
From Verif Require Import SanitizeModel.
Import ListNotations.

(** A memory has a loop-carried dependence. *)
Definition dep (t : tv) : Prop := exists f a o, t = TDep f a o /\ (f = true \/ a = true \/ o = true).

(** Kinds of dependences. *)
Inductive kind := KFlow | KAnti | KOutput.
Definition has (k : kind) (t : tv) : Prop :=
  match t with
  | TDep f a o => match k with KFlow => f | KAnti => a | KOutput => o end = true
  | _ => False
  end.

(** Each node of the set is visited once. *)
Definition visits (order : list nat) (ds : list dnode) : Prop :=
  NoDup (map nId ds) /\ Permutation order (map nId ds).

(** A node before and after. *)
Definition result (order : list nat) (ds : list dnode) (n n' : dnode) : Prop :=
  In n ds /\ In n' (sanitize order ds) /\ nId n = nId n'.

(** Memory of a node consists of a single location. *)
Definition alone (n : dnode) : Prop := nUnknown n = [] /\ exists l, nLocs n = [l].

(** All nodes are in the result, their memory is the same. *)
Definition C92_same_claim : Prop :=
  forall order ds, visits order ds ->
    map nId (sanitize order ds) = map nId ds
    /\ forall n n', result order ds n n' ->
         map lLoad (nLocs n') = map lLoad (nLocs n) /\ nUnknown n' = nUnknown n.

(** A node without dependences or with a single location is not changed. *)
Definition C92_untouched_claim : Prop :=
  forall order ds n n', visits order ds -> result order ds n n' ->
    ~ dep (nTrait n) \/ alone n -> n' = n.

(** Otherwise kinds of dependences of all locations are kinds of dependences of the
    node (before the correction each dependence of a location is a dependence of the
    node). *)
Definition C92_uniform_claim : Prop :=
  forall order ds n n', visits order ds -> result order ds n n' ->
    dep (nTrait n) -> ~ alone n -> dep (nTrait n') ->
    (forall l k, In l (nLocs n) -> has k (lTrait l) -> has k (nTrait n)) ->
    forall l k, In l (nLocs n') -> (has k (lTrait l) <-> has k (nTrait n')).

(** Locations do not lose dependences and they are not changed if the dependence of
    the node is dropped. *)
Definition C92_kept_claim : Prop :=
  forall order ds n n', visits order ds -> result order ds n n' ->
    Forall2 (fun l l' => lLoad l' = lLoad l /\ (forall k, has k (lTrait l) -> has k (lTrait l'))) (nLocs n) (nLocs n')
    /\ (~ dep (nTrait n') -> nLocs n' = nLocs n).

(** The trait of a node is replaced with the trait of a location. *)
Definition replaced (main : loc) (t : tv) : Prop :=
  (~ dep (lTrait main) -> t = lTrait main) /\ (dep (lTrait main) -> forall k, has k t).

(** All locations besides [main] are accessed through private pointers. *)
Definition justified (ds : list dnode) (n : dnode) (main : loc) : Prop :=
  exists before after, nLocs n = before ++ main :: after /\ lLoad main = None
    /\ forall l, In l (before ++ after) -> exists p np, lLoad l = Some p
         /\ In np ds /\ nId np = p /\ nTrait np = TPrivate.

(** A node changes its trait only if all locations besides one are accessed through
    pointers which are private in the result; the trait of this location is used. *)
Definition C92_reason_claim : Prop :=
  forall order ds n n', visits order ds -> result order ds n n' ->
    nTrait n' = nTrait n
    \/ exists main, justified (sanitize order ds) n main /\ replaced main (nTrait n').

(** The same for pointers which have been private from the beginning. Guard: nodes of
    pointers have no dependences. *)
Definition plain_pointers (ds : list dnode) : Prop :=
  forall n l p np, In n ds -> In l (nLocs n) -> lLoad l = Some p -> In np ds -> nId np = p -> ~ dep (nTrait np).
Definition C92_original_claim (gp : bool) : Prop :=
  forall order ds n n', visits order ds -> result order ds n n' ->
    (gp = true -> plain_pointers ds) ->
    nTrait n' = nTrait n
    \/ exists main, justified ds n main /\ replaced main (nTrait n').

(** A result does not depend on the order of visits. Guard: as above. *)
Definition C92_order_claim (gp : bool) : Prop :=
  forall o1 o2 ds, visits o1 ds -> visits o2 ds ->
    (gp = true -> plain_pointers ds) -> sanitize o1 ds = sanitize o2 ds.

(** A dependence of unknown memory is a dependence of the node. Guard: the node has
    no unknown memory with dependences besides locations. *)
Definition C92_unknown_claim (gu : bool) : Prop :=
  forall order ds n n' u, visits order ds -> result order ds n n' ->
    dep (nTrait n) -> In u (nUnknown n) -> dep u ->
    (gu = true -> nLocs n = [] \/ exists l p, In l (nLocs n) /\ lLoad l = Some p /\ forall np, In np ds -> nId np <> p) ->
    dep (nTrait n').

(** A dependence is dropped if it is allowed: pointers have been private from the
    beginning (a dependence without kinds is not a trait). *)
Definition C92_drop_claim : Prop :=
  forall order ds n n' main, visits order ds -> result order ds n n' ->
    dep (nTrait n) -> ~ alone n -> lTrait main <> TDep false false false -> justified ds n main -> replaced main (nTrait n').
