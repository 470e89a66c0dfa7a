(** What it means that a loop may be executed in parallel with a given treatment
    of a memory location; independent of the analysis. *)
From Coq Require Import ZArith NArith List Permutation.
From Verif Require Import TraitModel TraitSpec PrivModel.
Import ListNotations.
Open Scope nat_scope.

(** A memory location consists of cells.  An iteration of a loop is a program
    which reads and writes cells of the location; everything else it does is
    fixed. *)
Definition cell := nat.
Definition mem := cell -> Z.
Inductive prog :=
| Done
| Read (c : cell) (k : Z -> prog)
| Write (c : cell) (v : Z) (p : prog).
Definition upd (m : mem) (c : cell) (v : Z) : mem :=
  fun x => if Nat.eqb x c then v else m x.

(* the memory after an execution, and the values obtained by reads *)
Fixpoint finalOf (p : prog) (m : mem) : mem :=
  match p with
  | Done => m
  | Read c k => finalOf (k (m c)) m
  | Write c v p => finalOf p (upd m c v)
  end.
Fixpoint readsOf (p : prog) (m : mem) : list Z :=
  match p with
  | Done => []
  | Read c k => m c :: readsOf (k (m c)) m
  | Write c v p => readsOf p (upd m c v)
  end.
(* the execution from [m] writes [x], accesses [x], reads [x] before it writes [x] *)
Fixpoint writes (p : prog) (m : mem) (x : cell) : Prop :=
  match p with
  | Done => False
  | Read c k => writes (k (m c)) m x
  | Write c v p => c = x \/ writes p (upd m c v) x
  end.
Fixpoint touches (p : prog) (m : mem) (x : cell) : Prop :=
  match p with
  | Done => False
  | Read c k => c = x \/ touches (k (m c)) m x
  | Write c v p => c = x \/ touches p (upd m c v) x
  end.
Fixpoint exposes (p : prog) (m : mem) (x : cell) : Prop :=
  match p with
  | Done => False
  | Read c k => c = x \/ exposes (k (m c)) m x
  | Write c v p => c <> x /\ exposes p (upd m c v) x
  end.

(** The sequential execution of the iterations [ps]. *)
Definition runAll (ps : list prog) (m : mem) : mem :=
  fold_left (fun m p => finalOf p m) ps m.
Definition iter (ps : list prog) (i : nat) : prog := nth i ps Done.
Definition startOf (ps : list prog) (m : mem) (i : nat) : mem := runAll (firstn i ps) m.

(** What happens in the sequential execution of a loop to the cell [c]. *)
Section Loop.
Variables (ps : list prog) (m0 : mem).
Let n := length ps.
Definition writesAt (i : nat) (c : cell) := writes (iter ps i) (startOf ps m0 i) c.
Definition touchesAt (i : nat) (c : cell) := touches (iter ps i) (startOf ps m0 i) c.
Definition exposesAt (i : nat) (c : cell) := exposes (iter ps i) (startOf ps m0 i) c.
(* no iteration reads a value which is not written in the same iteration *)
Definition noExposed (c : cell) := forall i, i < n -> ~ exposesAt i c.
(* no iteration writes *)
Definition neverWritten (c : cell) := forall i, i < n -> ~ writesAt i c.
(* no loop-carried flow, anti or output dependence *)
Definition noCarried (c : cell) := forall i j, i < n -> j < n -> i <> j ->
  writesAt i c -> ~ touchesAt j c.
(* the last iteration always writes *)
Definition lastWrites (c : cell) := 0 < n -> writesAt (n - 1) c.
(* all iterations but the last one write *)
Definition othersWrite (c : cell) := forall i, i + 1 < n -> writesAt i c.
Definition lastDoesNot (c : cell) := 0 < n -> ~ writesAt (n - 1) c.

(** ** Parallel executions *)

(** Private copies: each thread has a copy of the location, [th] maps an
    iteration to a thread, [order] is the order in which iterations are
    executed.  The result is a list of (iteration, obtained values, content of
    the copy after the iteration, start of the iteration).  Copies of different
    threads are disjoint so it is enough to consider indivisible iterations. *)
Fixpoint execPrivate (th : nat -> nat) (order : list nat) (copies : nat -> mem)
    : list (nat * (list Z * (mem * mem))) :=
  match order with
  | [] => []
  | i :: order =>
      let m := copies (th i) in
      let m' := finalOf (iter ps i) m in
      (i, (readsOf (iter ps i) m, (m', m))) ::
      execPrivate th order (fun t => if Nat.eqb t (th i) then m' else copies t)
  end.

(** The location is shared: steps of iterations interleave in any way.  A state
    is a list of (rest of the iteration, values obtained so far) and memory. *)
Inductive sharedStep : list (prog * list Z) * mem -> list (prog * list Z) * mem -> Prop :=
| SRead a b c k tr m :
    sharedStep (a ++ (Read c k, tr) :: b, m) (a ++ (k (m c), tr ++ [m c]) :: b, m)
| SWrite a b c v p tr m :
    sharedStep (a ++ (Write c v p, tr) :: b, m) (a ++ (p, tr) :: b, upd m c v).
Inductive sharedSteps : list (prog * list Z) * mem -> list (prog * list Z) * mem -> Prop :=
| SNil s : sharedSteps s s
| SCons s t u : sharedStep s t -> sharedSteps t u -> sharedSteps s u.

(** Content of the original location after a parallel loop with private copies.
    [copyIn]: a copy starts with the initial content of the location; [junk] is
    an arbitrary content. *)
Definition copyOf (r : list (nat * (list Z * (mem * mem)))) (i : nat) (x : mem) : Prop :=
  exists tr s, In (i, (tr, (x, s))) r.
Definition writtenIn (r : list (nat * (list Z * (mem * mem)))) (i : nat) (c : cell) : Prop :=
  exists tr x s, In (i, (tr, (x, s))) r /\ writes (iter ps i) s c.
Definition unwritten (copyIn : bool) (junk : mem) : mem :=
  if copyIn then m0 else match n with O => m0 | _ => junk end.
Definition resultAt (t : treatment) (copyIn : bool) (junk : mem)
    (r : list (nat * (list Z * (mem * mem)))) (c : cell) (v : Z) : Prop :=
  match t with
  | CopyOutLast | CopyInOutLast =>
      match n with
      | O => v = m0 c
      | S k => exists x, copyOf r k x /\ v = x c
      end
  | CopyOutSecondToLast | CopyInOutSecondToLast =>
      match n with
      | S (S k) => exists x, copyOf r k x /\ v = x c
      | _ => v = unwritten copyIn junk c
      end
  | CopyOutDynamic | CopyInOutDynamic =>
      (* the last iteration in which the cell is written provides the value *)
      (exists i x, writtenIn r i c /\ (forall j, i < j -> ~ writtenIn r j c) /\
         copyOf r i x /\ v = x c) \/
      ((forall i, ~ writtenIn r i c) /\ v = unwritten copyIn junk c)
  | CopyIn => v = m0 c  (* the original location is not changed *)
  | _ => True   (* nothing is known about the content *)
  end.

(** The loop is executed correctly with the treatment [t]: all iterations obtain
    the same values as in the sequential execution and cells which are used
    after the loop have the same content. *)
Variable used : cell -> Prop.
Definition sameReads (i : nat) (tr : list Z) :=
  tr = readsOf (iter ps i) (startOf ps m0 i).
Definition privateCorrect (t : treatment) (copyIn : bool) :=
  forall th order junk copies, Permutation order (seq 0 n) ->
  (copyIn = true -> forall k c, copies k c = m0 c) ->
  let r := execPrivate th order copies in
  (forall i tr xs, In (i, (tr, xs)) r -> sameReads i tr) /\
  (forall c v, used c -> resultAt t copyIn junk r c v -> v = runAll ps m0 c) /\
  (forall c, used c -> exists v, resultAt t copyIn junk r c v).
Definition sharedCorrect :=
  forall final m, sharedSteps (map (fun p => (p, [])) ps, m0) (final, m) ->
  (forall q, In q final -> fst q = Done) ->
  length final = n /\
  (forall i, i < n -> sameReads i (snd (nth i final (Done, [])))) /\
  (forall c, m c = runAll ps m0 c).
Definition correctWith (t : treatment) : Prop :=
  match t with
  | Ignore | Reduce | Induct => forall i c, i < n -> ~ touchesAt i c
  | Share => sharedCorrect
  | Serialize => True
  | MakePrivate | CopyOutLast | CopyOutSecondToLast | CopyOutDynamic =>
      privateCorrect t false
  | CopyIn | CopyInOutLast | CopyInOutSecondToLast | CopyInOutDynamic =>
      privateCorrect t true
  end.

(** Facts about a location which occupies [cells] are true of the loop. *)
Definition factsTrue (f : locFacts) (cells : cell -> Prop) : Prop :=
  forall c, cells c ->
    (fUse f = false -> noExposed c) /\
    (fDef f = false -> fMayDef f = false -> neverWritten c) /\
    (fLiveOut f = false -> fLiveAggr f = false -> ~ used c) /\
    (fInvariant f = true -> fExitMust f = true -> lastWrites c) /\
    (fInvariant f = true -> fLatchMust f = true -> othersWrite c) /\
    (fInvariant f = true -> fExitMay f = false -> lastDoesNot c).
End Loop.
