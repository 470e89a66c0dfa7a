(** Name lookup in C: to which declarations references of a program refer. *)
From Coq Require Import List String Bool Arith.
From Verif Require Import RenameModel.
Import ListNotations.
Local Open Scope list_scope.

Definition env := list (string * nat).
Fixpoint lookup (n : string) (e : env) : option nat :=
  match e with [] => None | (m, d) :: e => if String.eqb m n then Some d else lookup n e end.
(** Declarations found for references, in order of the text, and names visible after a
    statement: a name is visible after its declarator up to the end of the scope *)
Fixpoint refs (s : stm) (e : env) {struct s} : list (option nat) * env :=
  let refsL := fix refsL (l : list stm) (e : env) : list (option nat) * env :=
    match l with
    | [] => ([], e)
    | s :: l => let r := refs s e in let q := refsL l (snd r) in (fst r ++ fst q, snd q)
    end in
  match s with
  | SPragma => ([], e)
  | SDecl _ d n sub => (fst (refsL sub ((n, d) :: e)), (n, d) :: e)
  | SUse _ _ n => ([lookup n e], e)
  | SScope _ l => (fst (refsL l e), e)
  | SStmt l => refsL l e
  end.
Fixpoint refsL (l : list stm) (e : env) : list (option nat) * env :=
  match l with
  | [] => ([], e)
  | s :: l => let r := refs s e in let q := refsL l (snd r) in (fst r ++ fst q, snd q)
  end.
Definition refsItem (i : item) (e : env) : list (option nat) * env :=
  match i with
  | IDecl _ d n sub => (fst (refsL sub ((n, d) :: e)), (n, d) :: e)
  | IFunc d n params body => (fst (refsL body (map (fun p => (snd p, fst p)) (rev params) ++ (n, d) :: e)), (n, d) :: e)
  end.
Fixpoint refsItems (is : list item) (e : env) : list (option nat) :=
  match is with
  | [] => []
  | i :: is => let r := refsItem i e in fst r ++ refsItems is (snd r)
  end.
(** References in order of the text: declarations they refer to in the syntax tree *)
Fixpoint uses (s : stm) : list nat :=
  match s with
  | SPragma => []
  | SDecl _ _ _ sub => flat_map uses sub
  | SUse _ d _ => [d]
  | SScope _ l => flat_map uses l
  | SStmt l => flat_map uses l
  end.
Definition usesItem (i : item) : list nat := match i with IDecl _ _ _ sub => flat_map uses sub | IFunc _ _ _ body => flat_map uses body end.
(** Declarations with their names *)
Fixpoint decls (s : stm) : list (nat * string) :=
  match s with
  | SPragma => []
  | SDecl _ d n sub => (d, n) :: flat_map decls sub
  | SUse _ _ _ => []
  | SScope _ l => flat_map decls l
  | SStmt l => flat_map decls l
  end.
Definition declsItem (i : item) : list (nat * string) :=
  match i with IDecl _ d n sub => (d, n) :: flat_map decls sub | IFunc d n params body => (d, n) :: params ++ flat_map decls body end.
(** All names in the text *)
Fixpoint names (s : stm) : list string :=
  match s with
  | SPragma => []
  | SDecl _ _ n sub => n :: flat_map names sub
  | SUse _ _ n => [n]
  | SScope _ l => flat_map names l
  | SStmt l => flat_map names l
  end.
Definition namesItem (i : item) : list string :=
  match i with IDecl _ _ n sub => n :: flat_map names sub | IFunc _ n params body => n :: map snd params ++ flat_map names body end.
(** The same program up to names *)
Fixpoint shape (s : stm) : stm :=
  match s with
  | SPragma => SPragma
  | SDecl k d _ sub => SDecl k d EmptyString (map shape sub)
  | SUse u d _ => SUse u d EmptyString
  | SScope m l => SScope m (map shape l)
  | SStmt l => SStmt (map shape l)
  end.
Definition shapeItem (i : item) : item :=
  match i with IDecl k d _ sub => IDecl k d EmptyString (map shape sub) | IFunc d _ ps body => IFunc d EmptyString (map (fun p => (fst p, EmptyString)) ps) (map shape body) end.
(** Each reference in the syntax tree is a reference to a declaration the lookup finds *)
Definition resolved (tu : list item) : Prop := refsItems tu [] = map Some (flat_map usesItem tu).
(** There are no types and functions declared inside of functions *)
Fixpoint objects (s : stm) : bool :=
  match s with
  | SPragma => true
  | SDecl k _ _ sub => match k with DObj | DExt => forallb objects sub | _ => false end
  | SUse _ _ _ => true
  | SScope _ l => forallb objects l
  | SStmt l => forallb objects l
  end.
Definition objectsItem (i : item) : bool := match i with IDecl _ _ _ sub => forallb objects sub | IFunc _ _ _ body => forallb objects body end.
(** References to types refer to types *)
Section Typed.
Variable isType : nat -> bool.
Definition typeDecl (k : dkind) : bool := match k with DType => true | _ => false end.
Fixpoint typed (s : stm) : bool :=
  match s with
  | SPragma => true
  | SDecl k d _ sub => Bool.eqb (isType d) (typeDecl k) && forallb typed sub
  | SUse u d _ => match u with UType => isType d | URef => true end
  | SScope _ l => forallb typed l
  | SStmt l => forallb typed l
  end.
Definition typedItem (i : item) : bool :=
  match i with
  | IDecl k d _ sub => Bool.eqb (isType d) (typeDecl k) && forallb typed sub
  | IFunc d _ ps body => negb (isType d) && forallb (fun p => negb (isType (fst p))) ps && forallb typed body
  end.
End Typed.
(** A statement with a directive at its end *)
Fixpoint endsP (s : stm) : bool :=
  let lastEnds := fix lastEnds (l : list stm) : bool := match l with [] => false | s :: l => match l with [] => endsP s | _ => lastEnds l end end in
  match s with
  | SPragma => true
  | SDecl _ _ _ sub => lastEnds sub
  | SUse _ _ _ => false
  | SScope _ l => lastEnds l
  | SStmt l => lastEnds l
  end.
Definition children (s : stm) : list stm := match s with SDecl _ _ _ sub => sub | SScope _ l => l | SStmt l => l | _ => [] end.
(** A declaration inside of a scope without macros which follows a directive *)
Inductive marked (d : nat) : list stm -> Prop :=
| mk_here pre x b post : endsP x = true -> In d (map fst (flat_map decls b)) -> marked d (pre ++ x :: SScope false b :: post)
| mk_in l s : In s l -> marked d (children s) -> marked d l.
(** Names of some declarations are replaced with new names *)
Inductive changed : list (nat * string) -> list (nat * string) -> list string -> Prop :=
| ch_nil : changed [] [] []
| ch_keep d n a b news : changed a b news -> changed ((d, n) :: a) ((d, n) :: b) news
| ch_new d n m a b news : changed a b news -> changed ((d, n) :: a) ((d, m) :: b) (m :: news).
(** Kinds of declarations inside of functions *)
Fixpoint kinds (s : stm) : list (nat * dkind) :=
  match s with
  | SPragma => []
  | SDecl k d _ sub => (d, k) :: flat_map kinds sub
  | SUse _ _ _ => []
  | SScope _ l => flat_map kinds l
  | SStmt l => flat_map kinds l
  end.
Definition kindsItem (i : item) : list (nat * dkind) := match i with IDecl _ _ _ sub => flat_map kinds sub | IFunc _ _ _ body => flat_map kinds body end.
