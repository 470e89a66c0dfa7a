(** Declared names, prototypes and clauses of a pragma (C102), without searches and tables. *)
From Coq Require Import List Bool Arith String.
From Verif Require Import ClauseModel DirectiveModel.
Import ListNotations.
Local Open Scope string_scope.

(** Numbers of declarations start with 1. *)
Definition isNamespace (ns : list string) (i : nat) (name : string) : Prop :=
  exists k, i = S k /\ nth_error ns k = Some name.
Definition isDirective (ds : list directive) (i parent : nat) (name : string) : Prop :=
  exists k d, i = S k /\ nth_error ds k = Some d /\ dname d = name /\ dparent d = parent.
Definition isClause (cs : list clause) (i parent : nat) (name : string) : Prop :=
  exists k c, i = S k /\ nth_error cs k = Some c /\ cname c = name /\ cparent c = parent.
(** Two different declarations of the same parent have different names. *)
Definition uniqueDirectives (ds : list directive) : Prop :=
  forall i j p n, isDirective ds i p n -> isDirective ds j p n -> i = j.
Definition uniqueClauses (cs : list clause) : Prop :=
  forall i j p n, isClause cs i p n -> isClause cs j p n -> i = j.
Definition uniqueNamespaces (ns : list string) : Prop :=
  forall i j n, isNamespace ns i n -> isNamespace ns j n -> i = j.

(** A search for any name finds the declaration with this name, or reports that there is no
    such declaration.  [g]: names of invalid identifiers are not searched. *)
Definition C102_namespace_claim (g : bool) : Prop :=
  forall ns name, uniqueNamespaces ns -> name <> "" -> (g = true -> name <> "not_namespace") ->
    (forall i, getNamespace ns name = Found i <-> isNamespace ns i name) /\
    ((forall i, ~ isNamespace ns i name) -> getNamespace ns name = NotFound).
Definition C102_directive_claim (g : bool) : Prop :=
  forall ds parent name, uniqueDirectives ds -> name <> "" -> (g = true -> name <> "not_directive") ->
    (forall i, getDirective ds parent name = Found i <-> isDirective ds i parent name) /\
    ((forall i, ~ isDirective ds i parent name) -> getDirective ds parent name = NotFound).
Definition C102_clause_claim (g : bool) : Prop :=
  forall cs parent name, uniqueClauses cs -> (g = true -> name <> "not_clause") ->
    (forall i, getClause cs parent name = Found i <-> isClause cs i parent name) /\
    ((forall i, ~ isClause cs i parent name) -> getClause cs parent name = NotFound).

(** A prototype of an expression: a token, or a kind, nested expressions and an anchor *)
Inductive shape : desc -> list ek -> Prop :=
| sh_single : forall k l, isSingle k = true -> shape (D k l) [k]
| sh_complex : forall k l w, isSingle k = false -> shapes l w -> shape (D k l) (k :: w ++ [EAnchor])%list
with shapes : list desc -> list ek -> Prop :=
| sh_nil : shapes [] []
| sh_cons : forall d l w w', shape d w -> shapes l w' -> shapes (d :: l) (w ++ w')%list.
(** A prototype of each clause is a prototype of its own expressions. *)
Definition C102_prototype_claim : Prop :=
  forall cs k c, nth_error cs k = Some c ->
    exists w, shapes (cexprs c) w /\ prototype cs (S k) = Some w.

(** A text of a pragma is a body of the directive (if it has a body) and names of clauses with
    their bodies. *)
Definition written : Type := (nat * string) * list ptok.
Definition clauseText (w : written) : list ptok := Name (snd (fst w)) :: snd w.
Definition pragmaText (hb : bool) (b : list ptok) (ws : list written) : list ptok :=
  ((if hb then b else []) ++ flat_map clauseText ws)%list.
(** A body of a clause is recognized if there is the next clause or the end of a pragma after it. *)
Definition recognized (body : nat -> list ptok -> option (list ptok * list ptok)) (c : nat) (b : list ptok) : Prop :=
  forall rest, (rest = [] \/ exists s rest', rest = Name s :: rest') -> body c (b ++ rest)%list = Some (b, rest).
(** All written clauses of a directive are found in its replacement, with their bodies and in the
    same order.  [gBody]: the directive has no body, [gName]: there is no clause with the name of
    an invalid clause. *)
Definition C102_found_claim (gBody gName : bool) : Prop :=
  forall cs body hb d c0 b ws, uniqueClauses cs ->
    (gBody = true -> hb = false) ->
    (hb = true -> isClause cs c0 d "" /\ recognized body c0 b) ->
    (forall c n b, In ((c, n), b) ws ->
       isClause cs c d n /\ n <> "" /\ recognized body c b /\ (gName = true -> n <> "not_clause")) ->
    exists nodes, handlePragma cs body hb d (pragmaText hb b ws) = Done nodes /\
      (forall c n, isClause cs c d n -> n <> "" ->
         findClause cs d nodes c = map (fun w => (n, snd w)) (filter (fun w => Nat.eqb (fst (fst w)) c) ws)) /\
      (forall c p n, isClause cs c p n -> p <> d -> findClause cs d nodes c = []).
(** A pragma with an unknown name of a clause is not replaced and an error is reported. *)
Definition C102_unknown_claim (gName : bool) : Prop :=
  forall cs body d name ts, uniqueClauses cs -> (gName = true -> name <> "not_clause") ->
    (forall c, ~ isClause cs c d name) -> handlePragma cs body false d (Name name :: ts) = Error.
(** Statements which are found for a clause in any replacement have the name of this clause, and
    the clause belongs to the directive. *)
Definition C102_select_claim : Prop :=
  forall cs d nodes id p n x, uniqueClauses cs -> isClause cs id p n ->
    In x (findClause cs d nodes id) -> In x nodes /\ fst x = n /\ p = d.
