(** Model of recognition of bodies of clauses in directives.
    - findAnchor, /repo/include/tsar/Support/Directives.h 135-154.
    - ClauseVisitor, /repo/include/tsar/Frontend/Clang/ClauseVisitor.h 48-363.
    - ExternalPreprocessor, /repo/include/tsar/Frontend/Clang/ExternalPreprocessor.h 38-132.

    Simplifications.  A position in a prototype (an iterator) is a rest of a list of
    expressions.  A position in a stream of tokens is a list of remaining tokens, the
    end of the list is tok::eod.  mBacktrackPositions is a part of levels, because
    positions and levels are pushed and popped together (a position at the bottom is not
    used).  A visited token is appended to the replacement as is: what is generated for a
    token (visitEK_Identifier and so on) depends on this token only.  Braces of EK_One,
    locations of tokens and names of clauses are not modelled.  A step of the loop takes a
    unit of fuel, [Fuel] means that the loop does not stop in time.  Failed assertions are
    [Bad]. *)
From Coq Require Import List Bool Arith Lia.
Import ListNotations.

(** A kind and a value of a token *)
Definition tok : Type := nat * nat.
(** ClauseExpr, /repo/include/tsar/Support/Directives.td 25-53: [ETok k] is a single token of the kind [k] *)
Inductive ek := ETok (k : nat) | EAnchor | EZeroOrOne | EZeroOrMore | EOneOrMore | EOneOf | EOne.
Definition isSingle (e : ek) : bool := match e with ETok _ | EAnchor => true | _ => false end.
(** The loop of findAnchor, Directives.h 144-152 *)
Fixpoint anchorLoop (n : nat) (I0 : list ek) : list ek :=
  match I0 with
  | [] => []
  | EAnchor :: I' => match n with O => I0 | S n => anchorLoop n I' end
  | e :: I' => anchorLoop (if isSingle e then n else S n) I'
  end.
(** Directives.h 135-154 *)
Definition findAnchor (I0 : list ek) : list ek :=
  match I0 with
  | [] => []
  | EAnchor :: _ => I0
  | _ :: I' => anchorLoop 0 I'
  end.
(** ExprLevel, ClauseVisitor.h 57-79 *)
Record level := Lv { start : list ek; kind : ek; occurred : bool; saved : list tok; savedOut : list tok }.
(** while (!isSingle( *(I + 1))) I = findAnchor(I + 1, EI); I = findAnchor(I + 1, EI),
    ClauseVisitor.h 297-304; [J] is I + 1, the number of steps is bounded by a length *)
Fixpoint skip (n : nat) (J : list ek) : list ek :=
  match n, J with
  | S n, e :: _ => if isSingle e then findAnchor J else skip n (tl (findAnchor J))
  | _, _ => []
  end.
(** backtrack, ClauseVisitor.h 274-321 *)
Fixpoint backtrack (I0 : list ek) (st : list level) : option (list ek * list tok * list level * list tok) :=
  match st with
  | [] => None
  | l :: st' =>
      let J := skip (length I0) (tl I0) in
      match kind l with
      | EOneOf =>
          match tl I0 with
          | EAnchor :: _ => backtrack (tl I0) st'
          | _ => Some (I0, saved l, st, savedOut l)
          end
      | EOne => backtrack (findAnchor I0) st'
      | EOneOrMore => if occurred l then Some (J, saved l, st', savedOut l) else backtrack J st'
      | _ => Some (J, saved l, st', savedOut l)
      end
  end.
(** The loop at the end of visitAnchor, ClauseVisitor.h 256-262 *)
Fixpoint popChoices (I0 : list ek) (st : list level) : list ek * list level :=
  match st with
  | l :: st' => match kind l with EOneOf => popChoices (findAnchor (start l)) st' | _ => (I0, st) end
  | [] => (I0, [])
  end.
Inductive result := Accept (out rest : list tok) | Reject | Bad | Fuel.
(** visitBody, ClauseVisitor.h 112-178, and visitAnchor, 233-264 *)
Fixpoint run (n : nat) (I0 : list ek) (ts : list tok) (st : list level) (out : list tok) : result :=
  match n with
  | O => Fuel
  | S n =>
      match I0 with
      | [] => match st with [] => Accept out ts | _ => Bad end
      | EAnchor :: _ =>
          match st with
          | [] => Bad
          | l :: st' =>
              match kind l with
              | EZeroOrMore | EOneOrMore => run n (tl (start l)) ts (Lv (start l) (kind l) true ts out :: st') out
              | _ => let (I1, st1) := popChoices I0 st' in run n (tl I1) ts st1 out
              end
          end
      | ETok k :: I' =>
          let inChoice := match st with l :: _ => match kind l with EOneOf => true | _ => false end | [] => false end in
          match ts with
          | t :: ts' =>
              if Nat.eqb (fst t) k
              then run n (if inChoice then findAnchor I0 else I') ts' st (out ++ [t])
              else match backtrack I0 st with
                   | Some (I1, ts1, st1, out1) => run n (tl I1) ts1 st1 out1
                   | None => Reject
                   end
          | [] =>
              match backtrack I0 st with
              | Some (I1, ts1, st1, out1) => run n (tl I1) ts1 st1 out1
              | None => Reject
              end
          end
      | e :: I' => run n I' ts (Lv I0 e false ts out :: st) out
      end
  end.
