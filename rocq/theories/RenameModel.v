(** Model of the renaming of local objects, /repo/lib/Transform/Clang/RenameLocal.cpp:
    - ClangRenamer, 76-214
    and of the search for identifiers of a file, /repo/lib/Support/Clang/Utils.cpp:134-175
    (getRawMacrosAndIncludes).

    Simplifications.  A syntax tree is represented by declarations, references and statements,
    each declaration and each reference has its own text (a name), ReplaceText changes this
    text.  Names belong to a single name space (tags, labels and fields of structures are not
    modelled).  Diagnostics and the removal of directives from sources are not modelled.  A
    result of for_each_macro for a statement is a part of the statement. *)
From Coq Require Import List String Ascii Bool Arith DecimalString.
Import ListNotations.
Local Open Scope list_scope.

(** Tokens of a file, Utils.cpp:140-174: a name, a directive #define with a name, others *)
Inductive token := TId (n : string) | TDefine (n : string) | TOther.
Fixpoint rawIds (ts : list token) : list string :=
  match ts with
  | [] => []
  | TId n :: ts => n :: rawIds ts
  | _ :: ts => rawIds ts
  end.

(** Declarations: a local object, an object declared extern, a type, a function *)
Inductive dkind := DObj | DExt | DType | DFun.
(** References: DeclRefExpr, TypeLoc *)
Inductive ukind := URef | UType.
Inductive stm :=
| SPragma                                                (* a directive with a clause rename *)
| SDecl (k : dkind) (d : nat) (n : string) (sub : list stm)
| SUse (u : ukind) (d : nat) (n : string)
| SScope (macro : bool) (l : list stm)                   (* CompoundStmt, ForStmt, DoStmt, WhileStmt *)
| SStmt (l : list stm).                                  (* other statements and expressions *)
Inductive item :=
| IDecl (k : dkind) (d : nat) (n : string) (sub : list stm)
| IFunc (d : nat) (n : string) (params : list (nat * string)) (body : list stm).

Definition has (ids : list string) (n : string) : bool := existsb (String.eqb n) ids.
Definition decimal (n : nat) : string := NilEmpty.string_of_uint (Nat.to_uint n).
(** The loop at 168-170 *)
Fixpoint freshFrom (fuel : nat) (ids : list string) (n : string) (count : nat) : option string :=
  match fuel with
  | O => None
  | S fuel => let m := String.append n (decimal count) in if has ids m then freshFrom fuel ids n (S count) else Some m
  end.
(** There is always a new name, see [C63_fresh] *)
Definition freshName (ids : list string) (n : string) : string :=
  match freshFrom (S (List.length ids)) ids n 0 with Some m => m | None => n end.

(** mClauses is not empty, mActiveRename, Identifiers, mChange *)
Record state := mkSt { pend : bool; active : bool; ids : list string; change : list (nat * string) }.
Fixpoint assoc (d : nat) (l : list (nat * string)) : option string :=
  match l with [] => None | (e, m) :: l => if Nat.eqb e d then Some m else assoc d l end.
Definition noPend (st : state) : state := mkSt false (active st) (ids st) (change st).
Definition setActive (b : bool) (st : state) : state := mkSt (pend st) b (ids st) (change st).
(** VisitNamedDecl, 162-177; try_emplace keeps the first name *)
Definition visitNamed (d : nat) (n : string) (st : state) : string * state :=
  if active st && has (ids st) n
  then let m := freshName (ids st) n in
       (m, mkSt (pend st) (active st) (ids st ++ [m]) (match assoc d (change st) with Some _ => change st | None => (d, m) :: change st end))
  else (n, st).
(** VisitDeclRefExpr, 179-188 *)
Definition visitRef (u : ukind) (d : nat) (n : string) (st : state) : string :=
  match u with
  | UType => n
  | URef => if active st then match assoc d (change st) with Some m => m | None => n end else n
  end.
(** TraverseFunctionDecl, 190-195, is used for functions declared inside of other functions *)
Definition enterDecl (k : dkind) (st : state) : state :=
  match k with DFun => mkSt (pend st) (active st) (ids st) [] | _ => st end.
(** TraverseStmt, 88-142, VisitStmt, 144-151, VisitDecl, 153-160 *)
Fixpoint trav (s : stm) (st : state) {struct s} : stm * state :=
  let travs := fix travs (l : list stm) (st : state) : list stm * state :=
    match l with
    | [] => ([], st)
    | s :: l => let r := trav s st in let q := travs l (snd r) in (fst r :: fst q, snd q)
    end in
  match s with
  | SPragma => (SPragma, mkSt true (active st) (ids st) (change st))
  | SDecl k d n sub =>
    let r := visitNamed d n (enterDecl k (noPend st)) in
    let q := travs sub (snd r) in (SDecl k d (fst r) (fst q), snd q)
  | SUse u d n => let st := noPend st in (SUse u d (visitRef u d n st), st)
  | SScope m l =>
    if pend st && negb (active st) && negb m
    then let q := travs l (setActive true (noPend st)) in (SScope m (fst q), setActive false (snd q))
    else let q := travs l (noPend st) in (SScope m (fst q), setActive (active st) (snd q))
  | SStmt l => let q := travs l (noPend st) in (SStmt (fst q), snd q)
  end.
Fixpoint travs (l : list stm) (st : state) : list stm * state :=
  match l with
  | [] => ([], st)
  | s :: l => let r := trav s st in let q := travs l (snd r) in (fst r :: fst q, snd q)
  end.
(** Declarations of a translation unit *)
Definition travItem (i : item) (st : state) : item * state :=
  match i with
  | IDecl k d n sub => let r := visitNamed d n (enterDecl k (noPend st)) in let q := travs sub (snd r) in (IDecl k d (fst r) (fst q), snd q)
  | IFunc d n params body =>
    let r := visitNamed d n (mkSt false (active st) (ids st) []) in
    let fix go ps st := match ps with
      | [] => ([], st)
      | (e, m) :: ps => let r := visitNamed e m st in let q := go ps (snd r) in ((e, fst r) :: fst q, snd q)
      end in
    let p := go params (snd r) in
    let q := trav (SScope false body) (snd p) in
    (IFunc d (fst r) (fst p) (match fst q with SScope _ l => l | _ => [] end), snd q)
  end.
Fixpoint travItems (is : list item) (st : state) : list item * state :=
  match is with
  | [] => ([], st)
  | i :: is => let r := travItem i st in let q := travItems is (snd r) in (fst r :: fst q, snd q)
  end.
(** ClangRenameLocalPass::runOnModule for a translation unit *)
Definition renameLocals (file : list token) (tu : list item) : list item := fst (travItems tu (mkSt false false (rawIds file) [])).
