(** Model of names of directives and clauses, of tables of prototypes of clauses and of handlers
    which replace pragmas.
    - Tables and searches of names, /repo/lib/Support/Directives.cpp 30-236.
    - Generation of prototypes, /repo/utils/TableGen/TableGen.cpp 118-156.
    - PragmaReplacer, ClauseReplacer, /repo/lib/Frontend/Clang/PragmaHandlers.cpp 150-268.
    - Pragma and findClause, /repo/lib/Frontend/Clang/Pragma.cpp 59-91.

    Simplifications.  Identifiers of namespaces, directives and clauses are numbers, 0 is an
    invalid one, as in the code.  A failed assertion is [Crash] (in a build without assertions the
    search continues).  Recognition of a body of a clause (see C101) is a parameter which returns
    tokens of the body and remaining tokens, or reports an error.  A replacement of a pragma is a
    list of nodes (a name of a clause and tokens of its body), instead of tokens of nested compound
    statements which are parsed later.  After a reported error a pragma is not replaced.  All
    clauses are registered (/repo/include/tsar/Frontend/Clang/DefaultPragmaHandlers.h 36-57), so
    FindHandler is successful if a clause is known. *)
From Coq Require Import List Bool Arith String Lia.
From Verif Require Import ClauseModel.
Import ListNotations.
Local Open Scope string_scope.

(** A description of an expression of a clause: a kind and nested expressions,
    /repo/include/tsar/Support/Directives.td 55-81 *)
Inductive desc := D (k : ek) (l : list desc).
(** Directives.td 92-96: a name, a namespace and existence of a body *)
Record directive := Dir { dname : string; dparent : nat; dbody : bool }.
(** Directives.td 120-124 *)
Record clause := Cl { cname : string; cparent : nat; cexprs : list desc }.
Inductive outcome := Found (i : nat) | NotFound | Crash.

(** std::find and std::find_if in Directives.cpp 184-227 with getParent, 172-182: there is no
    parent of an invalid identifier *)
Fixpoint findName (name : string) (i : nat) (t : list string) : outcome :=
  match t with
  | [] => NotFound
  | n :: t' => if String.eqb name n then Found i else findName name (S i) t'
  end.
Fixpoint findChild (name : string) (parent : nat) (i : nat) (t : list (string * option nat)) : outcome :=
  match t with
  | [] => NotFound
  | (n, p) :: t' =>
      if String.eqb name n
      then match p with
           | None => Crash
           | Some q => if Nat.eqb q parent then Found i else findChild name parent (S i) t'
           end
      else findChild name parent (S i) t'
  end.
(** getTsarDirectiveNamespace, Directives.cpp 184-196 *)
Definition getNamespace (ns : list string) (name : string) : outcome :=
  if String.eqb name "" then NotFound else findName name 0 ("not_namespace" :: ns).
(** getTsarDirective, Directives.cpp 198-213 *)
Definition getDirective (ds : list directive) (parent : nat) (name : string) : outcome :=
  if String.eqb name "" then NotFound
  else findChild name parent 0 (("not_directive", None) :: map (fun d => (dname d, Some (dparent d))) ds).
(** getTsarClause, Directives.cpp 215-227 *)
Definition getClause (cs : list clause) (parent : nat) (name : string) : outcome :=
  findChild name parent 0 (("not_clause", None) :: map (fun c => (cname c, Some (cparent c))) cs).

(** GenExprDescription, TableGen.cpp 118-129: written expressions and the returned size *)
Fixpoint genExpr (d : desc) : list ek * nat :=
  match d with
  | D k l =>
      if isSingle k then ([k], 1)
      else
        let fix children (l : list desc) : list ek * nat :=
          match l with
          | [] => ([], 0)
          | c :: l' => let (w, n) := genExpr c in let (w', n') := children l' in ((w ++ w')%list, n + n')
          end in
        let (w, n) := children l in (k :: (w ++ [EAnchor])%list, 1 + n + 1)
  end.
(** The inner loop of GenClausePrototypeList, TableGen.cpp 139-143 *)
Fixpoint genExprs (l : list desc) : list ek * nat :=
  match l with
  | [] => ([], 0)
  | d :: l' => let (w, n) := genExpr d in let (w', n') := genExprs l' in ((w ++ w')%list, n + n')
  end.
(** GenClausePrototypeList, TableGen.cpp 131-147: the table and offsets *)
Fixpoint genTable (cs : list clause) (offset : nat) : list ek * list nat :=
  match cs with
  | [] => ([], [offset])
  | c :: cs' =>
      let (w, n) := genExprs (cexprs c) in
      let (w', offs) := genTable cs' (offset + n) in ((w ++ w')%list, offset :: offs)
  end.
(** GenClauseOffsetList, TableGen.cpp 149-156, with PROTOTYPE(0, 0) of an invalid clause,
    Directives.cpp 117-123 *)
Fixpoint pairs (l : list nat) : list (nat * nat) :=
  match l with a :: (b :: _) as l' => (a, b) :: pairs l' | _ => [] end.
Definition offsetTable (cs : list clause) : list (nat * nat) := (0, 0) :: pairs (snd (genTable cs 0)).
(** ClausePrototype::get, Directives.cpp 229-235 *)
Definition prototype (cs : list clause) (id : nat) : option (list ek) :=
  if Nat.eqb id 0 then None
  else match nth_error (offsetTable cs) id with
       | Some (s, e) => Some (firstn (e - s) (skipn s (fst (genTable cs 0))))
       | None => None
       end.

(** Tokens of a pragma after a name of a directive: names (identifiers and keywords) and other
    tokens; the end of a list is tok::eod. *)
Inductive ptok := Name (s : string) | Other (n : nat).
Definition node : Type := string * list ptok.
Inductive reply := Done (l : list node) | Error | Fail | NoFuel.
Definition addNode (n : node) (r : reply) : reply := match r with Done l => Done (n :: l) | _ => r end.

Section Handlers.
Context (cs : list clause) (body : nat -> list ptok -> option (list ptok * list ptok)).

(** The loop of PragmaReplacer::HandlePragma, PragmaHandlers.cpp 211-242.  [HandleDirectiveBody]
    is never changed: it is assigned false only if it is already false (line 222). *)
Fixpoint handleLoop (n : nat) (hb : bool) (d : nat) (name : string) (ts : list ptok) : reply :=
  match n with
  | O => NoFuel
  | S n =>
      match getClause cs d name with
      | NotFound => Error
      | Crash => Fail
      | Found c =>
          match body c ts with
          | None => Error
          | Some (b, rest) =>
              addNode (name, b)
                match rest with
                | [] => Done []
                | t :: rest' =>
                    if hb then handleLoop n hb d "" rest'
                    else match t with Name s => handleLoop n hb d s rest' | Other _ => Error end
                end
          end
      end
  end.
(** PragmaReplacer::HandlePragma, PragmaHandlers.cpp 198-244: the name of a directive is the
    first token if there is a body *)
Definition handlePragma (hb : bool) (d : nat) (ts : list ptok) : reply :=
  if hb then handleLoop (S (List.length ts)) hb d "" ts
  else match ts with
       | [] => Done []
       | Name s :: ts' => handleLoop (S (List.length ts')) hb d s ts'
       | Other _ :: _ => Error
       end.
(** getParent, Directives.cpp 178-182 *)
Definition parentOf (id : nat) : option nat :=
  match id with O => None | S i => match nth_error cs i with Some c => Some (cparent c) | None => None end end.
(** The loop of findClause, Pragma.cpp 82-89 *)
Fixpoint findLoop (d id : nat) (l : list node) : list node :=
  match l with
  | [] => []
  | x :: l' =>
      match getClause cs d (fst x) with
      | Found c => if Nat.eqb c id then x :: findLoop d id l' else findLoop d id l'
      | _ => findLoop d id l'
      end
  end.
(** findClause, Pragma.cpp 78-91: a pragma is a directive and nodes of clauses *)
Definition findClause (d : nat) (nodes : list node) (id : nat) : list node :=
  match parentOf id with
  | Some p => if Nat.eqb d p then findLoop d id nodes else []
  | None => []
  end.
End Handlers.
