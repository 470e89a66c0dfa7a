(** Model of the rewriter of Fortran sources.
    - FlangRewriter, /repo/include/tsar/Support/Flang/Rewriter.h 36-185 and
      /repo/lib/Support/Flang/Rewriter.cpp 38-96.
    Texts of single files are edited as in [RewriterModel] (RewriterBase.cpp).

    Simplifications.  A character of a cooked source is a pair: its provenance (an
    offset) and, if there is a source position, a file and an offset in this file
    (GetLineStartOffset(line) + column - 1).  Flang is not modelled, cooked sources
    are arbitrary lists.  DenseMap of files is a list in the order of first
    occurrences, the order is not observable by modelled functions.  A ProvenanceRange
    is a pair of its first and last offset.  Undefined behaviour, failed assertions
    and exceptions are [None].  print and ReplacedSize are not modelled. *)
From Coq Require Import ZArith List Bool Lia.
From Verif Require Import RewriterModel.
Import ListNotations.
Local Open Scope Z_scope.

Definition char : Type := Z * option (nat * Z).
(** FileRewriter, Rewriter.h 42-104: mFile, mRange, mBuffer and mMapping *)
Record file := File { fid : nat; lo : Z; hi : Z; frw : rw nat }.
(** Rewriter.h 179-183; mIntervals consists of ranges of [files] *)
Record rewriter := Rewriter { files : list file; mainId : nat; flag : bool }.

(** Rewriter.cpp 58-62: try_emplace and ExtendRange (Rewriter.h 63-65) *)
Fixpoint extend (fs : list (nat * (Z * Z))) (f : nat) (p : Z) : list (nat * (Z * Z)) :=
  match fs with
  | [] => [(f, (p, p))]
  | (g, (a, b)) :: fs' =>
      if Nat.eqb g f then (g, (Z.min a p, Z.max b p)) :: fs' else (g, (a, b)) :: extend fs' f p
  end.
(** Rewriter.cpp 50-64 *)
Definition ranges (cooked : list char) : list (nat * (Z * Z)) :=
  fold_left (fun fs c => match snd c with Some (f, _) => extend fs f (fst c) | None => fs end) cooked [].
(** InitBuffer, Rewriter.h 67-70: elements of a resized vector are zeros *)
Definition initBuffer (content : nat -> list nat) (r : nat * (Z * Z)) : file :=
  let '(f, (a, b)) := r in File f a b (mkRW (content f) (repeat 0 (Z.to_nat (2 * (b - a + 1))))).
(** IntervalMap::insert asserts that intervals do not overlap, Rewriter.cpp 72-74 *)
Fixpoint disjointb (fs : list file) : bool :=
  match fs with
  | [] => true
  | f :: fs' => forallb (fun g => (hi f <? lo g) || (hi g <? lo f)) fs' && disjointb fs'
  end.
(** IntervalMap::find: the first interval which ends at [x] or after [x] (it may not
    contain [x]) *)
Fixpoint find (x : Z) (fs : list file) : option file :=
  match fs with
  | [] => None
  | f :: fs' =>
      match find x fs' with
      | None => if x <=? hi f then Some f else None
      | Some g => if (x <=? hi f) && (hi f <? hi g) then Some f else Some g
      end
  end.
(** An update of an object which is pointed by an element of a map *)
Definition update (id : nat) (r : rw nat) (fs : list file) : list file :=
  map (fun f => if Nat.eqb (fid f) id then File (fid f) (lo f) (hi f) r else f) fs.
(** mMapping[i] = v *)
Definition setAt (m : list Z) (i v : Z) : option (list Z) :=
  if (0 <=? i) && (i <? zlen m)
  then Some (firstn (Z.to_nat i) m ++ v :: skipn (S (Z.to_nat i)) m) else None.
(** FileRewriter::Map, Rewriter.cpp 38-46 *)
Definition mapAt (f : file) (p o : Z) : option (rw nat) :=
  let i := 2 * (p - lo f) in
  match setAt (mapping (frw f)) i o with
  | Some m => match setAt m (i + 1) o with Some m => Some (mkRW (buf (frw f)) m) | None => None end
  | None => None
  end.
(** Rewriter.cpp 76-88 *)
Fixpoint mapAll (cooked : list char) (fs : list file) : option (list file) :=
  match cooked with
  | [] => Some fs
  | (p, None) :: cooked => mapAll cooked fs
  | (p, Some (_, o)) :: cooked =>
      match find p fs with
      | Some f => match mapAt f p o with Some r => mapAll cooked (update (fid f) r fs) | None => None end
      | None => None
      end
  end.
(** FlangRewriter::FlangRewriter, Rewriter.cpp 48-96 *)
Definition construct (content : nat -> list nat) (mainFile : nat) (cooked : list char) : option rewriter :=
  let fs := map (initBuffer content) (ranges cooked) in
  if disjointb fs && existsb (fun f => Nat.eqb (fid f) mainFile) fs
  then match mapAll cooked fs with Some fs => Some (Rewriter fs mainFile false) | None => None end
  else None.

(** ProvenanceRange::Contains of the range of [n] characters *)
Definition contains (f : file) (p n : Z) : bool := (lo f <=? p) && (p + n - 1 <=? hi f).
Definition inMain (r : rewriter) (p n : Z) : option file :=
  List.find (fun f => Nat.eqb (fid f) (mainId r) && contains f p n) (files r).
(** Rewriter.h 116-128 *)
Definition isMacroOrCompiler (r : rewriter) (p : Z) : bool :=
  match inMain r p 1 with
  | Some _ => false
  | None => match find p (files r) with Some _ => false | None => true end
  end.
Definition isInclude (r : rewriter) (p : Z) : bool :=
  match inMain r p 1 with
  | Some _ => false
  | None => match find p (files r) with Some _ => true | None => false end
  end.
(** findFile, Rewriter.h 170-177 *)
Definition findFile (r : rewriter) (p n : Z) : option file :=
  match inMain r p n with Some f => Some f | None => find p (files r) end.
(** ReplaceText, Rewriter.h 139-144 and 74-81: true is a failure *)
Definition replace (r : rewriter) (p n : Z) (s : list nat) : option (bool * rewriter) :=
  match findFile r p n with
  | Some f =>
      if contains f p n then
        match replaceText (frw f) (p - lo f) n s with
        | Some t => Some (false, Rewriter (update (fid f) t (files r)) (mainId r) (flag r))
        | None => None
        end
      else Some (true, r)
  | None => Some (true, r)
  end.
(** InsertText, Rewriter.h 146-151 and 83-89: a result of a file is ignored *)
Definition insert (r : rewriter) (p : Z) (s : list nat) (after : bool) : option (bool * rewriter) :=
  match findFile r p 1 with
  | Some f =>
      if contains f p 1 then
        match insertText (frw f) (p - lo f) s after with
        | Some t => Some (true, Rewriter (update (fid f) t (files r)) (mainId r) (flag r))
        | None => None
        end
      else Some (true, r)
  | None => Some (true, r)
  end.
(** FileRewriter::hasModification, Rewriter.h 54-57 *)
Definition modified (content : nat -> list nat) (f : file) : bool :=
  if list_eq_dec Nat.eq_dec (content (fid f)) (buf (frw f)) then false else true.
(** hasModification, Rewriter.h 130-137: the answer is stored if it is true *)
Definition hasModification (content : nat -> list nat) (r : rewriter) : bool * rewriter :=
  if flag r then (true, r)
  else let b := existsb (modified content) (files r) in (b, Rewriter (files r) (mainId r) b).

(** ** Clients *)
Inductive op := Rep (p n : Z) (s : list nat) | Ins (p : Z) (s : list nat) (after : bool) | Query.
Definition step (content : nat -> list nat) (r : rewriter) (o : op) : option (bool * rewriter) :=
  match o with
  | Rep p n s => replace r p n s
  | Ins p s a => insert r p s a
  | Query => Some (hasModification content r)
  end.
Fixpoint run (content : nat -> list nat) (r : rewriter) (h : list op) : option rewriter :=
  match h with
  | [] => Some r
  | o :: h => match step content r o with Some (_, r) => run content r h | None => None end
  end.
(** buffer_begin, buffer_end, getBuffer, Rewriter.h 161-162 *)
Definition text (r : rewriter) (f : nat) : option (list nat) :=
  match List.find (fun g => Nat.eqb (fid g) f) (files r) with Some g => Some (buf (frw g)) | None => None end.
