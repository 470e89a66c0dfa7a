(** Which global variables are referenced by a call of a function (C55). *)
From Coq Require Import List Bool Arith.
From Verif Require Import GlobalsModel.
Import ListNotations.

(** A value mentions a global variable. *)
Inductive mentions : value -> nat -> Prop :=
| me_global g : mentions (VGlobal g) g
| me_addr v g : mentions v g -> mentions (VAddr v) g
| me_p2i v g : mentions v g -> mentions (VPtrToInt v) g
| me_i2p v g : mentions v g -> mentions (VIntToPtr v) g
| me_agg vs v g : In v vs -> mentions v g -> mentions (VAggregate vs) g.
(** Values which are produced by address computations only, and maybe cast to an integer. *)
Inductive address : value -> Prop :=
| ad_global g : address (VGlobal g)
| ad_addr v : address v -> address (VAddr v).
Definition simple (v : value) : Prop :=
  (exists g, mentions v g) -> address v \/ exists a, address a /\ (v = VPtrToInt a).

Section Spec.
Variable M : gmodule.
(** A call of f references g: in its instructions, in its callees, in functions which are not
    known.  [skip]: calls of these functions are not considered. *)
Inductive references (skip : nat -> Prop) : nat -> nat -> Prop :=
| r_own f v g : gEmpty M f = false -> In v (gOperands M f) -> mentions v g -> references skip f g
| r_call f c g : In (Some c) (gEdges M f) -> ~ skip c -> references skip c g -> references skip f g
| r_unknown f g : In None (gEdges M f) -> In g (gGlobals M) -> references skip f g.
(** Functions for which sets are not collected. *)
Definition special (f : nat) : Prop := gIntrinsic M f = true \/ gLib M f = true \/ gArgMemOnly M f = true.
Inductive calls : nat -> nat -> Prop :=
| c_refl f : calls f f
| c_step f c h : In (Some c) (gEdges M f) -> calls c h -> calls f h.
(** components are visited from callees to callers *)
Definition calleesFirst (SCCs : list (list (option nat))) : Prop :=
  forall before SCC after, SCCs = before ++ SCC :: after -> forall f c,
  In (Some f) SCC -> In (Some c) (gEdges M f) -> In (Some c) SCC \/ exists S, In S before /\ In (Some c) S.
(** functions of a component call each other *)
Definition connected (SCCs : list (list (option nat))) : Prop :=
  forall SCC f, In SCC SCCs -> In (Some f) SCC -> forall n, In n SCC -> exists h, n = Some h /\ calls f h.
End Spec.
