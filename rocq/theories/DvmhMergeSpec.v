(** Specification of regions around parallel loops: how directives are executed and which loops
    are in the same region. *)
From Coq Require Import PeanoNat Bool List ZArith.
From Verif Require Import DvmhMergeModel.
Import ListNotations.

(** Memory of a host and of a device.  [mDev v]: the copy of [v] on the device is newer. *)
Definition values := nat -> Z.
Record memory := Memory { mHostVal : values; mDevVal : values; mDev : nat -> bool }.
Definition inb (v : nat) (vs : list nat) : bool := existsb (Nat.eqb v) vs.
(** actual(vs): values on the host are the newest ones. *)
Definition execActual (vs : list nat) (m : memory) : memory :=
  Memory (mHostVal m) (mDevVal m) (fun v => if inb v vs then false else mDev m v).
(** get_actual(vs): values on the host become up to date. *)
Definition execGet (vs : list nat) (m : memory) : memory :=
  Memory (fun v => if inb v vs && mDev m v then mDevVal m v else mHostVal m v) (mDevVal m)
    (fun v => if inb v vs then false else mDev m v).
(** region in(...) out(...): values on the device become up to date; later the device owns the
    newest values of outputs.  A region for a host moves nothing. *)
Definition execEnter (r : region) (m : memory) : memory :=
  if rHost r then m
  else Memory (mHostVal m)
         (fun v => if inb v (rIn r) && negb (mDev m v) then mHostVal m v else mDevVal m v)
         (fun v => if inb v (rOut r) then true else mDev m v).

(** A program: for each child of a scope how it changes values; [None]: a statement which is not a
    parallel loop in a region, it is executed on the host. *)
Definition program := list (option nat * (values -> values)).
Fixpoint sequential (P : program) (m : values) : values :=
  match P with [] => m | (_, f) :: P => sequential P (f m) end.
Definition onOption {A B} (f : A -> B -> B) (o : option A) (b : B) : B :=
  match o with Some a => f a b | None => b end.
(** [open]: a region which is executed, is it for a host only. *)
Fixpoint execute (L : layout) (P : program) (open : option bool) (m : memory) : memory :=
  match P with
  | [] => m
  | (c, f) :: P =>
      let p := match c with Some i => L i | None => Place None None false None end in
      let m := onOption execActual (pActual p) m in
      let m := onOption execEnter (pRegion p) m in
      let open := match pRegion p with Some r => Some (rHost r) | None => open end in
      let m := match open with
               | Some false => Memory (mHostVal m) (f (mDevVal m)) (mDev m)
               | _ => Memory (f (mHostVal m)) (mDevVal m) (mDev m)
               end in
      let open := if pMarker p then None else open in
      let m := onOption execGet (pGet p) m in
      execute L P open m
  end.
Definition children (P : program) : list (option nat) := map fst P.
Definition loopsOf (cs : list (option nat)) : list nat :=
  flat_map (fun c => match c with Some i => [i] | None => [] end) cs.

(** Results of analysis are right: a loop changes outputs only, and new values of them depend on
    inputs only. *)
Definition obeys (n : info) (f : values -> values) : Prop :=
  (forall m v, ~ In v (nOut n) -> f m v = m v) /\
  (forall m m' v, (forall u, In u (nIn n) -> m u = m' u) -> In v (nOut n) -> f m v = f m' v).
Definition analyzed (ns : nat -> info) (P : program) : Prop :=
  NoDup (loopsOf (children P)) /\
  (forall c f, In (c, f) P -> forall m m', (forall v, m v = m' v) -> forall v, f m v = f m' v) /\
  forall i f, In (Some i, f) P -> nHost (ns i) = false -> obeys (ns i) f.

(** Neighbouring parallel loops are for the same kind of a device. *)
Fixpoint sameKind (ns : nat -> info) (cs : list (option nat)) : Prop :=
  match cs with
  | [] => True
  | c :: cs =>
      match c, cs with Some i, Some j :: _ => nHost (ns i) = nHost (ns j) | _, _ => True end /\
      sameKind ns cs
  end.
(** Maximal sequences of neighbouring parallel loops of the same kind. *)
Fixpoint groups (ns : nat -> info) (cs : list (option nat)) : list (list nat) :=
  match cs with
  | [] => []
  | None :: cs => groups ns cs
  | Some i :: cs' =>
      match hd None cs', groups ns cs' with
      | Some j, g :: gs => if eqb (nHost (ns i)) (nHost (ns j)) then (i :: g) :: gs else [i] :: g :: gs
      | _, gs => [i] :: gs
      end
  end.

(** A program with directives gives the same results on the host.  *)
Definition C81_initial_claim : Prop :=
  forall ns P m, analyzed ns P -> (forall v, mDev m v = false) ->
    forall v, mHostVal (execute (initial ns) P None m) v = sequential P (mHostVal m) v.
(** The same after regions are merged.  [gKind]: neighbouring loops are of the same kind. *)
Definition C81_results_claim (gKind : bool) : Prop :=
  forall ns P m, analyzed ns P -> (forall v, mDev m v = false) ->
    (gKind = true -> sameKind ns (children P)) ->
    exists L, mergeSiblings (children P) (initial ns) = Some L /\
    forall v, mHostVal (execute L P None m) v = sequential P (mHostVal m) v.
(** Neighbouring loops of the same kind form a single region with directives which mention variables
    of these loops and no other ones. *)
Definition ofGroup (ns : nat -> info) (sel : info -> list nat) (g : list nat) (vs : list nat) : Prop :=
  forall v, In v vs <-> exists i, In i g /\ nHost (ns i) = false /\ In v (sel (ns i)).
Definition C81_groups_claim (gKind : bool) : Prop :=
  forall ns cs, NoDup (loopsOf cs) -> (gKind = true -> sameKind ns cs) ->
    exists L, mergeSiblings cs (initial ns) = Some L /\
    forall g, In g (groups ns cs) -> exists first rest,
      g = first :: rest /\
      (exists r, pRegion (L first) = Some r /\ (forall i, In i g -> rHost r = nHost (ns i)) /\
        ofGroup ns nIn g (rIn r) /\ ofGroup ns nOut g (rOut r) /\ ofGroup ns nPriv g (rPriv r)) /\
      ofGroup ns nIn g (orEmpty (pActual (L first))) /\
      ofGroup ns nOut g (orEmpty (pGet (L (last rest first)))) /\
      (forall i, In i g -> (pRegion (L i) <> None <-> i = first) /\
        (pMarker (L i) = true <-> i = last rest first) /\
        (i <> first -> pActual (L i) = None) /\ (i <> last rest first -> pGet (L i) = None)).
