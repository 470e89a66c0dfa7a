(** Model of a search for macros (C97):
    - getRawMacrosAndIncludes, /repo/lib/Support/Clang/Utils.cpp 134-175;
    - MacroVisitor and for_each_macro, /repo/include/tsar/Analysis/Clang/NoMacroAssert.h 48-175;
    - NoMacroChecker, /repo/lib/Analysis/Clang/NoMacroAssert.cpp 66-138.

    A file is a list of raw tokens. Names of files in #include directives, TypeLoc (methods
    for it are never called because of a mistake in their names) and diagnostics are not
    modelled. *)
From Coq Require Import PeanoNat Bool List.
Import ListNotations.

(** Names are numbers, names of directives are the first ones. *)
Definition nDefine := 0.
Definition nInclude := 1.
Definition nPragma := 2.
Definition nUndef := 3.
Definition nIfdef := 4.
Definition nIfndef := 5.
Inductive tok := TId (s : nat) | THash | TLess | TGreater | TLit | TOther.
(** A token and a flag isAtStartOfLine(). *)
Definition token := (tok * bool)%type.
Definition isHash (t : token) : bool :=
  match fst t with THash => snd t | _ => false end.

(** ** Utils.cpp 134-175 *)
(** An assertion is violated (getRawIdentifier, getLiteralData), an infinite loop (162-164). *)
Inductive collected := Ok (macros ids : list nat) | Assert | Hang.
(** A position in the body of the loop: 143, 151, 155, 158, 163. *)
Inductive mode := MNormal | MHash | MDefine | MInclude | MAngle.
Fixpoint collect (m : mode) (ts : list token) (ms ids : list nat) : collected :=
  match ts with
  | [] =>
      match m with
      | MNormal | MHash => Ok ms ids
      | MDefine | MInclude => Assert
      | MAngle => Hang
      end
  | t :: r =>
      match m with
      | MNormal =>
          if isHash t then collect MHash r ms ids
          else match fst t with TId s => collect MNormal r ms (s :: ids) | _ => collect MNormal r ms ids end
      | MHash =>
          match fst t with
          | TId s =>
              if s =? nDefine then collect MDefine r ms ids
              else if s =? nInclude then collect MInclude r ms ids
              else collect MNormal r ms ids
          | _ => collect MNormal r ms ids
          end
      | MDefine =>
          match fst t with TId s => collect MNormal r (s :: ms) ids | _ => Assert end
      | MInclude =>
          match fst t with
          | TLess => collect MAngle r ms ids
          | TLit => collect MNormal r ms ids
          | _ => Assert
          end
      | MAngle =>
          match fst t with TGreater => collect MNormal r ms ids | _ => collect MAngle r ms ids end
      end
  end.
Definition collectFile (ts : list token) : collected := collect MNormal ts [] [].
(** GlobalInfoExtractor.cpp 88-98: all files with visited locations. *)
Fixpoint collectFiles (fs : list (list token)) : collected :=
  match fs with
  | [] => Ok [] []
  | f :: r =>
      match collectFile f with
      | Ok ms ids => match collectFiles r with Ok ms' ids' => Ok (ms ++ ms') (ids ++ ids') | e => e end
      | e => e
      end
  end.

(** ** NoMacroAssert.h *)
(** A location in AST: where it is expanded and whether it is in a macro. *)
Definition astLoc := (nat * bool)%type.
(** 109-115. *)
Fixpoint checkLocs (locs : list astLoc) (visited : list nat) : list nat * list nat :=
  match locs with
  | [] => ([], visited)
  | (p, b) :: r =>
      if existsb (Nat.eqb p) visited then checkLocs r visited
      else let '(rep, v) := checkLocs r (p :: visited) in ((if b then [p] else []) ++ rep, v)
  end.
(** 59-80. *)
Inductive reports := Reports (l : list nat) | RAssert.
Definition report (p : nat) (r : reports) : reports :=
  match r with Reports l => Reports (p :: l) | RAssert => RAssert end.
Inductive rmode := RNormal | RHash (p : nat) | RDef (p : nat).
Section Raw.
  Variable visited : list nat.
  Variable macros : list nat.
  Fixpoint rawTraverse (m : rmode) (ts : list (nat * token)) : reports :=
    match ts with
    | [] => match m with RNormal => Reports [] | RHash _ => RAssert | RDef p => Reports [p] end
    | (q, t) :: r =>
        match m with
        | RNormal =>
            if isHash t then rawTraverse (RHash q) r
            else match fst t with
                 | TId s =>
                     if negb (existsb (Nat.eqb q) visited) && existsb (Nat.eqb s) macros
                     then report q (rawTraverse RNormal r) else rawTraverse RNormal r
                 | _ => rawTraverse RNormal r
                 end
        | RHash p =>
            match fst t with
            | TId s =>
                if s =? nPragma then rawTraverse RNormal r
                else if (s =? nDefine) || (s =? nUndef) || (s =? nIfdef) || (s =? nIfndef)
                then rawTraverse (RDef p) r
                else report p (rawTraverse RNormal r)
            | _ => RAssert
            end
        | RDef p => report p (rawTraverse RNormal r)
        end
    end.
End Raw.
(** 129-140: reported locations, is the search complete. *)
Definition forEachMacro (macros : list nat) (locs : list astLoc) (sameFile : bool) (range : list (nat * token)) : reports * bool :=
  let '(rep, visited) := checkLocs locs [] in
  if sameFile then
    (match rawTraverse visited macros RNormal range with
     | Reports l => Reports (rep ++ l)
     | RAssert => RAssert
     end, true)
  else (Reports rep, false).

(** ** NoMacroAssert.cpp 75-107 *)
(** A pragma (with the clause 'assert nomacro' or not), a statement or a declaration. *)
Inductive node := Prag (a : bool) | Node (i : nat) (cs : list node).
(** The result is an active clause and a list of checked nodes. *)
Fixpoint traverse (n : node) (active : bool) : bool * list nat :=
  match n with
  | Prag a => (a || active, [])
  | Node i cs =>
      if active then (false, [i])
      else (fix go (l : list node) (act : bool) : bool * list nat :=
              match l with
              | [] => (act, [])
              | c :: r =>
                  let '(a1, k1) := traverse c act in
                  let '(a2, k2) := go r a1 in (a2, k1 ++ k2)
              end) cs false
  end.
(** 110-130: is a node accepted. *)
Definition accepted (res : reports * bool) : bool :=
  match res with (Reports [], true) => true | _ => false end.
