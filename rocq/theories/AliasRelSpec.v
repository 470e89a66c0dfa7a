(** What relations between memory locations mean (independent of the
    functions which compute them).

    A memory location starts at the address its pointer has at run time and
    describes a set of bytes.  A location of precise size n, or of size at most
    n, describes n bytes after its start; a location of unknown size describes
    all bytes after its start, or all bytes at all.  *)
From Coq Require Import ZArith Bool List.
From Verif Require Import AliasRelModel.
Import ListNotations.
Open Scope Z_scope.

Definition bytes (addr : ptr -> Z) (l : location) (z : Z) : Prop :=
  match lSize l with
  | SPrecise n | SUpper n => addr (lPtr l) <= z < addr (lPtr l) + n
  | SAfter => addr (lPtr l) <= z
  | SBeforeOrAfter => True
  end.
Definition sizeOk (l : location) : Prop :=
  match lSize l with SPrecise n | SUpper n => 0 <= n < 2 ^ 63 | _ => True end.

(** The last byte plus one of a precise location, counted from its base
    pointer, and the limits of int64_t. *)
Definition endOff (base : ptr -> ptr * Z) (l : location) : Z :=
  snd (base (lPtr l)) + getValue (lSize l).
Definition int64 (z : Z) : Prop := - 2 ^ 63 <= z < 2 ^ 63.

Definition overlap (addr : ptr -> Z) (l r : location) : Prop :=
  (exists z, bytes addr l z) -> (exists z, bytes addr r z) ->
  exists z, bytes addr l z /\ bytes addr r z.

(** Answers of alias analysis are true if metadata is correct. *)
Definition answer (addr : ptr -> Z) (a : aliasResult) (l r : location) : Prop :=
  match a with
  | ARNo => forall z, ~ (bytes addr l z /\ bytes addr r z)
  | ARMust => addr (lPtr l) = addr (lPtr r)
  | ARPartial => overlap addr l r
  | ARMay => True
  end.
Definition aliasTrue (addr : ptr -> Z) (alias : location -> location -> aliasResult) : Prop :=
  forall l r, corrupted (lTags l) = false -> corrupted (lTags r) = false ->
    answer addr (alias l r) l r.
Definition baseTrue (addr : ptr -> Z) (base : ptr -> ptr * Z) : Prop :=
  forall p, addr p = addr (fst (base p)) + snd (base p) /\ int64 (snd (base p)).

(** EstimateMemory.h 144-160: what a descriptor of a pair of locations says.
    The first location strictly covers the second one if it has all bytes of it
    and some other byte. *)
Definition covers (addr : ptr -> Z) (l r : location) : Prop :=
  (forall z, bytes addr r z -> bytes addr l z) /\
  (exists z, bytes addr l z /\ ~ bytes addr r z).
Definition coincide (addr : ptr -> Z) (l r : location) : Prop :=
  forall z, bytes addr l z <-> bytes addr r z.

Definition saysMain (addr : ptr -> Z) (d : descriptor) (l r : location) : Prop :=
  match dMain d with
  | MNo => forall z, ~ (bytes addr l z /\ bytes addr r z)
  | MMust => addr (lPtr l) = addr (lPtr r)
  | MPartial => overlap addr l r
  | MMay => True
  end.
Definition saysSide (addr : ptr -> Z) (d : descriptor) (l r : location) : Prop :=
  match dSide d with
  | SideCover => covers addr l r
  | SideContained => covers addr r l
  | SideNone => True
  end.
Definition says (addr : ptr -> Z) (d : descriptor) (l r : location) : Prop :=
  saysMain addr d l r /\ saysSide addr d l r /\
  (dCoincide d = true -> coincide addr l r).
