(** Model of the tree of source files.
    - FileTree, /repo/include/tsar/Analysis/Clang/IncludeTree.h 173-477.
    - FileTree::reconstruct, /repo/lib/Analysis/Clang/IncludeTree.cpp 59-90.

    Simplifications.  Identifiers of files and declarations are numbers.  An identifier of a file
    is an identifier in its transformation context, as in the code: different contexts may use
    the same identifiers.  A map of files is a list of pairs of an identifier and a context which
    is stored in a node.  Children of nodes are lists of pairs, their order (FileNode::sort) is
    not modelled.  A place of a directive include is represented by a file which contains it. *)
From Coq Require Import List Bool Arith Lia.
Import ListNotations.

(** A context: [inc f] is a file which includes [f] (getDecomposedIncludedLoc), outermost
    declarations with files (a file is invalid for an internal declaration) *)
Record context := Ctx { inc : nat -> option nat; decls : list (nat * option nat) }.
(** mFiles, children of nodes (files and declarations), internal declarations in mRoots *)
Record tree := Tree { files : list (nat * nat); edges : list (nat * nat); owned : list (nat * nat); internals : list nat }.
Definition hasFile (f : nat) (t : tree) : bool := existsb (fun x => Nat.eqb (fst x) f) (files t).
(** insert, IncludeTree.h 296-305 *)
Definition insert (k f : nat) (t : tree) : tree * bool :=
  if hasFile f t then (t, false) else (Tree (files t ++ [(f, k)]) (edges t) (owned t) (internals t), true).
(** push_back, IncludeTree.h 122-132 *)
Definition pushFile (p f : nat) (t : tree) : tree := Tree (files t) (edges t ++ [(p, f)]) (owned t) (internals t).
Definition pushDecl (f d : nat) (t : tree) : tree := Tree (files t) (edges t) (owned t ++ [(d, f)]) (internals t).
(** The inner loop of reconstruct, IncludeTree.cpp 81-87.  The number of steps is bounded by an
    identifier of a file, because a file which contains a directive has a smaller one. *)
Fixpoint climb (n k : nat) (inc : nat -> option nat) (f : nat) (new : bool) (t : tree) : tree :=
  match n with
  | O => t
  | S n =>
      match inc f with
      | None => t
      | Some p =>
          if new then let (t1, new1) := insert k p t in climb n k inc p new1 (pushFile p f t1) else t
      end
  end.
(** The body of the outer loop, IncludeTree.cpp 66-88 *)
Definition addDecl (k : nat) (inc : nat -> option nat) (t : tree) (x : nat * option nat) : tree :=
  match snd x with
  | None => Tree (files t) (edges t) (owned t) (internals t ++ [fst x])
  | Some f => let (t1, new) := insert k f t in climb (S f) k inc f new (pushDecl f (fst x) t1)
  end.
Definition reconstruct (k : nat) (c : context) (t : tree) : tree := fold_left (addDecl k (inc c)) (decls c) t.
(** reconstruct, IncludeTree.h 443-455 *)
Fixpoint reconstructFrom (k : nat) (cs : list context) (t : tree) : tree :=
  match cs with [] => t | c :: cs' => reconstructFrom (S k) cs' (reconstruct k c t) end.
Definition reconstructAll (cs : list context) : tree := reconstructFrom 0 cs (Tree [] [] [] []).
(** find, IncludeTree.h 335-339: a file and its context; the first stored file is used (try_emplace) *)
Definition find (d : nat) (t : tree) : option (nat * nat) :=
  match List.find (fun x => Nat.eqb (fst x) d) (owned t) with
  | Some (_, f) => List.find (fun x => Nat.eqb (fst x) f) (files t)
  | None => None
  end.
(** isInclude, IncludeTree.h 105, for a file with a stored context *)
Definition isInclude (cs : list context) (x : nat * nat) : bool :=
  match nth_error cs (snd x) with
  | Some c => match inc c (fst x) with Some _ => true | None => false end
  | None => false
  end.
(** roots, IncludeTree.h 349-363, filled in 448-453 *)
Definition roots (cs : list context) (t : tree) : list (nat * nat) := filter (fun x => negb (isInclude cs x)) (files t).
(** root_size, IncludeTree.h 399: mRoots contains internal declarations and top-level files *)
Definition rootSize (cs : list context) (t : tree) : nat := length (internals t) + length (roots cs t).
(** getParent, IncludeTree.h 118-120: the last assigned parent *)
Definition parentOf (f : nat) (t : tree) : option nat :=
  match List.find (fun x => Nat.eqb (snd x) f) (rev (edges t)) with Some (p, _) => Some p | None => None end.
(** findRoot, IncludeTree.h 365-371, the number of steps is bounded as above *)
Fixpoint findRoot (n f : nat) (t : tree) : nat :=
  match n with
  | O => f
  | S n => match parentOf f t with Some p => findRoot n p t | None => f end
  end.
