(** Model of the search for pairs of loops of a source code and loops of LLVM IR,
    /repo/lib/Analysis/Clang/LoopMatcher.cpp 112-180 (MatchExplicitVisitor::VisitStmt), 196-213
    (MatchImplicitVisitor::VisitStmt), 283-311 (runOnFunction).

    Simplifications.
    - Queues, maps from locations and findIRForLocation are taken from MatchModel.v.
    - Statements (including expressions) of a function are given in the order of visits, all of them
      are outside macros (VisitFromMacro and matchInMacro are in MatchModel.v).
    - updateMetadata is not modelled. *)
From Coq Require Import PeanoNat Bool List.
From Verif Require Import MatchModel.
Import ListNotations.

Inductive skind := KFor (init : option loc) | KLoop (* while, do-while *) | KLabel | KPlain.
Record stmt := Stmt { tId : nat; tKind : skind; tBegin : loc }.
(** A loop: Loop::getStartLoc and a location of the terminator of the header *)
Record irloop := Loop { lId : nat; lStart : option loc; lHeader : option loc }.
Definition header (ls : list irloop) (x : nat) : option loc :=
  match find (fun l => Nat.eqb (lId l) x) ls with Some l => lHeader l | None => None end.
(** Bimap::emplace, a loop may be a null pointer. *)
Definition same (o1 o2 : option nat) : bool :=
  match o1, o2 with Some x, Some y => Nat.eqb x y | None, None => true | _, _ => false end.
Definition emplace (n : nat) (o : option nat) (B : list (nat * option nat)) : list (nat * option nat) :=
  if existsb (fun p => Nat.eqb (fst p) n || same (snd p) o) B then B else B ++ [(n, o)].
Record lstate := LState {
  mMap : irMap;                      (* mLocToIR *)
  mImp : irMap;                      (* mLocToImplicit *)
  mMatch : list (nat * option nat);  (* mMatcher *)
  mUnmatched : list nat              (* mUnmatchedAST *)
}.
Definition removeLoc (M : irMap) (l : loc) : irMap := fun l' => if Nat.eqb l l' then None else M l'.
(* DenseMap::insert *)
Definition insertLoc (M : irMap) (l : loc) (q : queue) : irMap := match M l with Some _ => M | None => upd M l q end.
Definition locEq (o : option loc) (l : loc) : bool := match o with Some h => Nat.eqb h l | None => false end.
Definition isLoop (t : stmt) : bool := match tKind t with KFor _ | KLoop => true | _ => false end.

Section Search.
  Variable asserts : bool.
  Variable ls : list irloop.
  (** 148-178 *)
  Definition visitAccurate (t : stmt) (s : lstate) : result lstate :=
    match findIRForLocation asserts (mMap s) (tBegin t) with
    | Crash => Crash
    | Done (o, M) =>
        if isLoop t
        then
          match o with
          | Some x => Done (LState M (mImp s) (emplace (tId t) (Some x) (mMatch s)) (mUnmatched s))
          | None => Done (LState M (mImp s) (mMatch s) (tId t :: mUnmatched s))
          end
        else
          match o with
          | Some x =>
              match header ls x with
              | Some h =>
                  let q := match mImp s h with Some q => q | None => Queue false [] end in
                  Done (LState M (upd (mImp s) h (push q x)) (mMatch s) (mUnmatched s))
              | None => Done (LState M (mImp s) (mMatch s) (mUnmatched s))
              end
          | None => Done (LState M (mImp s) (mMatch s) (mUnmatched s))
          end
    end.
  (** 117-146 *)
  Definition visitInit (t : stmt) (i : loc) (q : queue) (s : lstate) : result lstate :=
    match rev (qItems q) with
    | [] =>
        (* back() of an empty vector *)
        if asserts || qVec q then Crash
        else Done (LState (mMap s) (mImp s) (emplace (tId t) None (mMatch s)) (mUnmatched s))
    | x :: r =>
        let B := emplace (tId t) (Some x) (mMatch s) in
        match r with
        | [] => Done (LState (upd (mMap s) i (Queue (qVec q) [])) (mImp s) B (mUnmatched s))
        | _ =>
            let M := removeLoc (mMap s) i in
            let M := if locEq (header ls x) (tBegin t) then insertLoc M (tBegin t) (Queue (qVec q) (rev r)) else M in
            Done (LState M (mImp s) B (mUnmatched s))
        end
    end.
  Definition visitExplicit (t : stmt) (s : lstate) : result lstate :=
    match tKind t with
    | KFor (Some i) => match mMap s i with Some q => visitInit t i q s | None => visitAccurate t s end
    | _ => visitAccurate t s
    end.
  Fixpoint visitAll (ts : list stmt) (s : lstate) : result lstate :=
    match ts with
    | [] => Done s
    | t :: ts => match visitExplicit t s with Crash => Crash | Done s => visitAll ts s end
    end.
  (** 196-213 *)
  Fixpoint visitImplicit (ts : list stmt) (label : option nat) (s : lstate) : result lstate :=
    match ts with
    | [] => Done s
    | t :: ts =>
        match tKind t, label with
        | KFor _, _ | KLoop, _ => visitImplicit ts label s
        | KLabel, _ => visitImplicit ts (Some (tId t)) s
        | KPlain, None => visitImplicit ts label s
        | KPlain, Some lab =>
            match findIRForLocation asserts (mImp s) (tBegin t) with
            | Crash => Crash
            | Done (Some x, M) => visitImplicit ts label (LState (mMap s) M (emplace lab (Some x) (mMatch s)) (mUnmatched s))
            | Done (None, M) => visitImplicit ts label (LState (mMap s) M (mMatch s) (mUnmatched s))
            end
        end
    end.
End Search.
(** 283-311 *)
Definition runLoops (asserts : bool) (ts : list stmt) (ls : list irloop) : result lstate :=
  let M := reverseAll (collect (map (fun l => (lId l, lStart l)) ls) (fun _ => None)) in
  match visitAll asserts ls ts (LState M (fun _ => None) [] []) with
  | Crash => Crash
  | Done s => visitImplicit asserts ts None (LState (mMap s) (reverseAll (mImp s)) (mMatch s) (mUnmatched s))
  end.
