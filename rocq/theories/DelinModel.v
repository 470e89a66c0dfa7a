(** Model of delinearization of array accesses,
    /repo/lib/Analysis/Memory/Delinearization.cpp.

    - extractSubscriptsFromGEPs, 93-135
    - cleanSubscripts, 219-346
    - fillArrayDimensionsSizes, 348-506

    Simplifications.  Safe type casts only (mIsSafeTypeCast).  Asserts are not modelled.
    A conversion of a dimension size to the index type is a parameter. *)
From Coq Require Import ZArith List Bool Arith Lia.
From Verif Require Import SCEVModel.
Import ListNotations.

(** llvm::Type: array types and other types (a number and a size). *)
Inductive lty := TOther (id : nat) (size : Z) | TArr (n : Z) (el : lty).
Fixpoint ltyEq (a b : lty) : bool :=
  match a, b with
  | TOther i s, TOther j t => Nat.eqb i j && Z.eqb s t
  | TArr n x, TArr m y => Z.eqb n m && ltyEq x y
  | _, _ => false
  end.

(** ** Subscripts of an address, 93-135 *)
Section Extract.
(** llvm::Value *)
Variable Val : Type.
Variable isConst isZeroConst : Val -> bool.
(** GEPOperator: indexes with indexed types; [None] is an index of a structure. *)
Definition gep := list (Val * option lty).
(** 108-115: types of indexes up to the first structure; was a structure found *)
Fixpoint arrayPrefix (g : gep) : list (Val * lty) * bool :=
  match g with
  | [] => ([], false)
  | (_, None) :: _ => ([], true)
  | (v, Some t) :: g => let '(l, s) := arrayPrefix g in ((v, t) :: l, s)
  end.
(** 100-127: the list GEPs (in the reversed order, as in the code) after one GEP *)
Definition extractOne (acc : list (Val * lty)) (g : gep) : list (Val * lty) :=
  match g with
  | [(v, Some t)] => acc ++ [(v, t)]
  | _ =>
    let '(l, s) := arrayPrefix g in
    let acc := if s then [] else acc in
    match l with
    | [] => acc
    | (v, t) :: l =>
      let acc := acc ++ rev l in
      if isConst v then (if isZeroConst v then acc else acc ++ [(v, t)]) else acc ++ [(v, t)]
    end
  end.
(** The result: indexes and true if all of them are used. *)
Definition extractSubscriptsFromGEPs (GEPs : list gep) (NumberOfDims : nat) : list (Val * lty) * bool :=
  let l := fold_left extractOne GEPs [] in
  if Nat.ltb 0 NumberOfDims && Nat.ltb NumberOfDims (length l) then (firstn NumberOfDims (rev l), false)
  else (rev l, true).
End Extract.

(** ** cleanSubscripts *)
(** Array::Range *)
Record range := mkRange {
  subs : list sc; types : list lty;
  isElement : bool; needExtraZero : bool; noGEP : bool; isDelinearized : bool }.

Section Clean.
Variable E : SE.
Variable fuel : nat.
(** type mIndexTy *)
Variable indexTy : nat.
Definition zero : sc := Cst indexTy 0.

(** addExtraConstZero, 224-249.  The second result is NewSubscripts: they are changed even
    if the first result is false. *)
Fixpoint addExtra (S_ : list sc) (T : list lty) (Extra : nat) (t : lty) (Idx : nat) (New : list sc) : bool * list sc :=
  match t with
  | TOther _ _ => (Nat.eqb Idx (length T), New)
  | TArr _ el =>
    if Nat.ltb Idx (length T)
    then
      if ltyEq el (nth Idx T el)
      then addExtra S_ T Extra el (S Idx) (New ++ [nth Idx S_ CNC])
      else match Extra with
           | S Extra => addExtra S_ T Extra el Idx (New ++ [zero])
           | O => (false, New)
           end
    else (true, New ++ repeat zero Extra)
  end.
Definition addExtraConstZero (S_ : list sc) (T : list lty) (Extra : nat) (t : lty) (Idx : nat) (New : list sc) : bool * list sc :=
  match t with TArr _ _ => addExtra S_ T Extra t Idx New | TOther _ _ => (false, New) end.

(** 250-253: the number of dimensions without constant ones at the end *)
Fixpoint lastConstDim (dims : list sc) : nat :=
  match dims with
  | [] => 0
  | d :: dims =>
    match lastConstDim dims with
    | O => match d with Cst _ _ => 0 | _ => 1 end
    | S n => S (S n)
    end
  end.

(** 295-327: [k] iterations are left.  The result: SubscriptIdx, ExtraZeroCount,
    NewSubscripts and the ghost of used divisions; [None] if the access can not be
    delinearized. *)
Fixpoint varLoop (dims S_ : list sc) (L k DimIdx SubscriptIdx Extra : nat) (New : list sc) (ok : bool)
  : out (option (nat * nat * list sc * bool)) :=
  match k with
  | O => Ok (Some (SubscriptIdx, Extra, New, ok))
  | S k =>
    bind (factorLoop (fun N D => divide E fuel true N D) (firstn (L - S DimIdx) (skipn (S DimIdx) dims))
            (nth SubscriptIdx S_ CNC) true true) (fun d =>
    match d with
    | Some (Q, _, ok') => varLoop dims S_ L k (S DimIdx) (S SubscriptIdx) Extra (New ++ [Q]) (ok && ok')
    | None =>
      match Extra with
      | S Extra => varLoop dims S_ L k (S DimIdx) SubscriptIdx Extra (New ++ [zero]) ok
      | O => Ok None
      end
    end)
  end.

(** The rest of subscripts, 328-340.  [None] if the access can not be delinearized. *)
Definition finishSubs (r : range) (SubscriptIdx Extra : nat) (New : list sc) : option (list sc) :=
  match Extra with
  | O => Some (New ++ skipn SubscriptIdx (subs r))
  | S _ =>
    if Nat.ltb SubscriptIdx (length (subs r))
    then
      let New1 := New ++ [nth SubscriptIdx (subs r) CNC] in
      match addExtraConstZero (subs r) (types r) Extra (nth SubscriptIdx (types r) (TOther 0 0)) (S SubscriptIdx) New1 with
      | (true, New2) => Some New2
      | (false, New2) =>
        match SubscriptIdx with
        | O => None
        | S J =>
          match addExtraConstZero (subs r) (types r) Extra (nth J (types r) (TOther 0 0)) SubscriptIdx (removelast New2) with
          | (true, New3) => Some New3
          | (false, _) => None
          end
        end
      end
    else Some (New ++ repeat zero Extra)
  end.

(** One access.  [baseTy]: the type of the array, 262-266.  The result contains the
    ghost of used divisions. *)
Definition cleanRange (dims : list sc) (baseTy : lty) (r : range) : out (range * bool) :=
  let L := lastConstDim dims in
  let Extra := if needExtraZero r then length dims - length (subs r) else 0 in
  let done s := mkRange s (types r) (isElement r) (needExtraZero r) (noGEP r) true in
  match L with
  | O => (* 254-281 *)
    match Extra with
    | O => Ok (done (subs r), true)
    | S _ =>
      match addExtraConstZero (subs r) (types r) Extra baseTy 0 [] with
      | (true, New) => Ok (done New, true)
      | (false, _) => Ok (r, true)
      end
    end
  | S L1 => (* 282-345 *)
    if noGEP r then Ok (r, true)
    else
      bind (varLoop dims (subs r) L (Nat.min L1 (length (subs r))) 0 0 Extra [] true) (fun m =>
      match m with
      | None => Ok (r, true)
      | Some (SubscriptIdx, Extra, New, ok) =>
        match finishSubs r SubscriptIdx Extra New with
        | Some New => Ok (done New, ok)
        | None => Ok (r, true)
        end
      end)
  end.

(** ** Sizes of dimensions, 406-505: the loop over dimensions from [DimIdx] down to 1.
    [dims]: sizes which are known; [None] is a null pointer. *)
Variable order : list sc -> list sc.
(** is an expression invariant in all loops with accesses to the array; are there such
    loops *)
Variable invariantAll : sc -> bool.
Variable hasLoops : bool.
Variable conv : sc -> sc.
Definition isCNC (s : sc) : bool := match s with CNC => true | _ => false end.
(** 419-430 *)
Definition expressions (rs : list range) (DimIdx : nat) : list sc :=
  flat_map (fun r => if negb (isElement r) || needExtraZero r then []
                     else rev (firstn DimIdx (subs r))) rs.
(** 456-480: the product of invariant factors; [None] if there are no such factors *)
Definition invariantFactors (DimSize : sc) : option sc :=
  if hasLoops
  then
    let factors := match DimSize with Mul l => l | _ => [DimSize] end in
    match filter invariantAll factors with
    | [] => None
    | l => Some (seMul E l)
    end
  else Some DimSize.
(** The size of a dimension which is not known; [None]: could not compute.  The last
    result is the ghost: divisions were reliable and the remainder at line 488 is zero. *)
Definition computeSize (rs : list range) (DimIdx : nat) (Prev : sc) : out (option sc * bool) :=
  match expressions rs DimIdx with
  | [] => Ok (None, true)
  | Es =>
    bind (findGCD E order fuel true Es) (fun g =>
    let '(G, ok) := g in
    if isCNC G then Ok (None, true)
    else
      match invariantFactors G with
      | None => Ok (None, true)
      | Some F => bind (divide E fuel true F Prev) (fun Div =>
                  Ok (Some (rQ Div), ok && rOk Div && isZero (rR Div)))
      end)
  end.
(** The result: sizes of dimensions 1..DimIdx; [None] if the array is not delinearized. *)
Fixpoint sizesLoop (rs : list range) (dims : list (option sc)) (DimIdx : nat) (Prev : sc) (acc : list sc) (ok : bool)
  : out (option (list sc) * bool) :=
  match DimIdx with
  | O => Ok (Some acc, ok)
  | S D1 =>
    let next (DimSize : sc) ok := sizesLoop rs dims D1 (seMul E [Prev; conv DimSize]) (DimSize :: acc) ok in
    match nth DimIdx dims None with
    | Some DimSize => if isZero DimSize then Ok (None, ok) else next DimSize ok
    | None =>
      bind (computeSize rs DimIdx Prev) (fun s =>
      match s with
      | (Some DimSize, ok') => next DimSize (ok && ok')
      | (None, _) => Ok (None, ok)
      end)
    end
  end.
End Clean.
