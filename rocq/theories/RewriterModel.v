(** Model of rewriting of source texts.
    - RewriterBaseImpl, /repo/include/tsar/Support/RewriterBase.h 35-61 and
      /repo/lib/Support/RewriterBase.cpp 27-53.
    - ExternalRewriter, /repo/lib/Support/Clang/Utils.cpp 186-287.

    Simplifications.  A text is a list of characters of an arbitrary type.  Locations
    are offsets from the beginning of the rewritten range (or from the beginning of
    the file, see RemoveText); validity of locations, macros and lexing of tokens
    (Lexer::getSourceText, MeasureTokenLength) are not modelled: the number of
    characters is a parameter.  std::size_t is Z modulo 2^64.  Out of range access to
    mMapping and exceptions of std::string are the undefined outcome [None]. *)
From Coq Require Import ZArith List Bool Lia.
Import ListNotations.
Local Open Scope Z_scope.

Definition W : Z := 2 ^ 64.
Definition wrap (z : Z) : Z := z mod W.

Section R.
Variable A : Type.
Definition zlen {B} (l : list B) : Z := Z.of_nat (length l).
(** mBuffer and mMapping, RewriterBase.h 59-60 *)
Record rw := mkRW { buf : list A; mapping : list Z }.

(** std::vector::operator[] *)
Definition at_ (m : list Z) (i : Z) : option Z :=
  if (0 <=? i) && (i <? zlen m) then nth_error m (Z.to_nat i) else None.
(** for (I = from; I < mMapping.size(); ++I) mMapping[I] += d *)
Definition addFrom (from d : Z) (m : list Z) : list Z :=
  firstn (Z.to_nat from) m ++ map (fun p => wrap (p + d)) (skipn (Z.to_nat from) m).
(** std::string::replace(pos, count, s): throws if pos is out of range, the count is
    clipped. *)
Definition strReplace (b : list A) (pos cnt : Z) (s : list A) : option (list A) :=
  if pos <=? zlen b
  then Some (firstn (Z.to_nat pos) b ++ s ++ skipn (Z.to_nat (pos + Z.min cnt (zlen b - pos))) b)
  else None.

(** Clang/Utils.cpp 186-196, the constructor: mMapping[2 * I] = mMapping[2 * I + 1] = I *)
Definition init (text : list A) : rw :=
  mkRW text (flat_map (fun i => [Z.of_nat i; Z.of_nat i]) (seq 0 (length text))).

(** RewriterBase.cpp 27-43 *)
Definition replaceText (r : rw) (OrigBegin Length : Z) (NewStr : list A) : option rw :=
  let OrigBeginIdx := wrap (2 * OrigBegin) in
  let OrigEndIdx := wrap (2 * (OrigBegin + Length - 1) + 1) in
  match at_ (mapping r) OrigBeginIdx, at_ (mapping r) OrigEndIdx with
  | Some Begin, Some e =>
    let End := wrap (e + 1) in
    let Cnt := wrap (End - Begin) in
    let NewStrSize := zlen NewStr in
    let m := if Cnt <? NewStrSize then addFrom OrigEndIdx (NewStrSize - Cnt) (mapping r)
             else if NewStrSize <? Cnt then addFrom OrigEndIdx (- (Cnt - NewStrSize)) (mapping r)
             else mapping r in
    match strReplace (buf r) Begin Cnt NewStr with
    | Some b => Some (mkRW b m)
    | None => None
    end
  | _, _ => None
  end.
(** RewriterBase.cpp 45-53 *)
Definition insertText (r : rw) (OrigBegin : Z) (NewStr : list A) (InsertAfter : bool) : option rw :=
  let OrigIdx := if InsertAfter then wrap (2 * OrigBegin + 1) else wrap (2 * OrigBegin) in
  match at_ (mapping r) OrigIdx with
  | Some p =>
    match strReplace (buf r) p 0 NewStr with
    | Some b => Some (mkRW b (addFrom OrigIdx (zlen NewStr) (mapping r)))
    | None => None
    end
  | None => None
  end.
(** RewriterBase.h 52-56.  [None] if the result is not inside of the buffer. *)
Definition getRewrittenText (r : rw) (OrigBegin Length : Z) : option (list A) :=
  match at_ (mapping r) (wrap (2 * OrigBegin)), at_ (mapping r) (wrap (2 * (OrigBegin + Length - 1) + 1)) with
  | Some Begin, Some e =>
    let n := wrap (wrap (e + 1) - Begin) in
    if Begin + n <=? zlen (buf r) then Some (firstn (Z.to_nat n) (skipn (Z.to_nat Begin) (buf r)))
    else None
  | _, _ => None
  end.

(** ** ExternalRewriter: what clients call *)
(** InsertText of the base is called as InsertText(Loc, NewStr), that is InsertAfter
    is always true: RewriterBase.h 76-79, 86-88, 95-97, Clang/Utils.h 143-144. *)
Definition insertTextBefore (r : rw) (Loc : Z) (s : list A) : option rw := insertText r Loc s true.
Definition insertTextAfter (r : rw) (Loc : Z) (s : list A) : option rw := insertText r Loc s true.
(** Clang/Utils.cpp 219-225; [TokLen] is the length of the token. *)
Definition insertTextAfterToken (r : rw) (Loc TokLen : Z) (s : list A) : option rw :=
  insertTextAfter r (Loc + TokLen) s.
End R.
Arguments mkRW {A}.
Arguments buf {A}.
Arguments mapping {A}.
Arguments strReplace {A}.
Arguments init {A}.
Arguments replaceText {A}.
Arguments insertText {A}.
Arguments getRewrittenText {A}.
Arguments insertTextBefore {A}.
Arguments insertTextAfter {A}.
Arguments insertTextAfterToken {A}.

(** ** RemoveText, Clang/Utils.cpp 231-278 *)
Section Remove.
Variable A : Type.
(** isWhitespace, isHorizontalWhitespace or '\r', '\n' *)
Variables isWs isHWs isNL : A -> bool.
(** The beginning of the line: after the last '\n' before [Loc], Clang/Utils.h 225-240
    (a simplification: SourceManager counts columns from the last end of line). *)
Definition lineStart (File : list A) (Loc : nat) : nat :=
  let fix back (k : nat) : nat :=
    match k with
    | O => O
    | S k' => match nth_error File k' with
              | Some c => if isNL c then k else back k'
              | None => k
              end
    end in back Loc.
(** 258-273: the number of characters after the range up to '\n' *)
Fixpoint lineEnd (l : list A) : option nat :=
  match l with
  | [] => None
  | c :: l => if isHWs c then option_map S (lineEnd l)
              else if isNL c then Some O else None
  end.
(** RemoveOffset (relative to [Base]: the offset of the rewritten range in the file,
    ComputeOrigOffset) and RemoveLength.  unsigned has 32 bits. *)
Definition removeRange (File : list A) (Base Loc : nat) (Len : nat) (RemoveLineIfEmpty : bool) : Z * Z :=
  let offset (L : nat) := (Z.of_nat L - Z.of_nat Base) mod 2 ^ 32 in
  if RemoveLineIfEmpty && forallb isWs (firstn (Loc - lineStart File Loc) (skipn (lineStart File Loc) File))
  then match lineEnd (skipn (Loc + Len) File) with
       | Some e => (offset (lineStart File Loc), Z.of_nat (Len + (Loc - lineStart File Loc) + e + 1))
       | None => (offset Loc, Z.of_nat Len)
       end
  else (offset Loc, Z.of_nat Len).
Definition removeText (r : rw A) (File : list A) (Base Loc Len : nat) (RemoveLineIfEmpty : bool) : option (rw A) :=
  let '(o, n) := removeRange File Base Loc Len RemoveLineIfEmpty in replaceText r o n [].
End Remove.
Arguments removeRange {A}.
Arguments removeText {A}.
Arguments lineStart {A}.
Arguments lineEnd {A}.
