(** Model of small utilities:
    /repo/include/tsar/Support/NumericUtils.h,
    /repo/lib/Support/Utils.cpp, /repo/include/tsar/Support/Utils.h,
    /repo/include/tsar/ADT/ItemRegister.h. *)
From Coq Require Import ZArith Bool List Arith.
Import ListNotations.

(** ** Checked conversion of integers *)
Section Cast.
Open Scope Z_scope.

(** llvm::APInt: [apBits] bits, [apWord] in [0, 2^apBits). *)
Record apint := mkAP { apBits : Z; apWord : Z }.
Definition apNegative (a : apint) : bool := 2 ^ (apBits a - 1) <=? apWord a.
(* APInt::getActiveBits *)
Definition activeBits (x : Z) : Z := if x =? 0 then 0 else Z.log2 x + 1.
Definition getActiveBits (a : apint) : Z := activeBits (apWord a).
(* APInt::getMinSignedBits: BitWidth - countLeadingOnes + 1 for negative values,
   getActiveBits + 1 for other ones *)
Definition getMinSignedBits (a : apint) : Z :=
  if apNegative a then activeBits (2 ^ apBits a - 1 - apWord a) + 1
  else getActiveBits a + 1.
Definition isSignedIntN (a : apint) (n : Z) : bool := getMinSignedBits a <=? n.
Definition isIntN (a : apint) (n : Z) : bool := getActiveBits a <=? n.
(* APInt::getSExtValue, getZExtValue; the assertions that the value has at most
   64 bits are the outcome [None] *)
Definition getSExtValue (a : apint) : option Z :=
  if getMinSignedBits a <=? 64
  then Some (if apNegative a then apWord a - 2 ^ apBits a else apWord a)
  else None.
Definition getZExtValue (a : apint) : option Z :=
  if getActiveBits a <=? 64 then Some (apWord a) else None.

(** The target type IntT: its signedness and sizeof(IntT) * CHAR_BIT. *)
Record intT := mkInt { tSigned : bool; tBits : Z }.
(* conversion of an integer to IntT: modulo 2^tBits *)
Definition staticCast (t : intT) (z : Z) : Z :=
  if tSigned t then (z + 2 ^ (tBits t - 1)) mod 2 ^ tBits t - 2 ^ (tBits t - 1)
  else z mod 2 ^ tBits t.

(** NumericUtils.h 38-48, isOverflow. *)
Definition isOverflow (t : intT) (a : apint) (IsSigned : bool) : bool :=
  if tSigned t then
    if IsSigned then negb (isSignedIntN a (tBits t - 1))
    else negb (isIntN a (tBits t - 1))
  else if IsSigned then true else negb (isIntN a (tBits t)).

(** NumericUtils.h 52-61, castAPInt: [Some None] if it returns false, [Some
    (Some v)] if it returns true and Out is v, [None] if an assertion of APInt
    is violated. *)
Definition castAPInt (t : intT) (a : apint) (IsSigned : bool)
    : option (option Z) :=
  if isOverflow t a IsSigned then Some None
  else match (if IsSigned then getSExtValue a else getZExtValue a) with
       | None => None
       | Some v => Some (Some (staticCast t v))
       end.

(** NumericUtils.h 65-71, castSCEV; [None] is an expression which is not a
    constant. *)
Definition castSCEV (t : intT) (e : option apint) (IsSigned : bool)
    : option (option Z) :=
  match e with Some a => castAPInt t a IsSigned | None => Some None end.
End Cast.

(** ** Arguments of a function *)

(** Utils.cpp 93-98, getArgument: the loop with the iterator [args] and the
    counter [I]; null is [None]. *)
Fixpoint getArgumentFrom {A} (args : list A) (I ArgNo : nat) : option A :=
  match args with
  | [] => None
  | x :: rest => if I <=? ArgNo then getArgumentFrom rest (S I) ArgNo else Some x
  end.
Definition getArgument {A} (args : list A) (ArgNo : nat) : option A :=
  getArgumentFrom args 0 ArgNo.

(** ** Strings *)
Section Strings.
Variable char : Type.
Definition str := list char.

(** Utils.h 59-67, join.  [None]: the iterator EI is dereferenced. *)
Definition join (l : list str) (Delimiter : str) : option str :=
  match l with
  | [] => None
  | x :: rest => Some (fold_left (fun out y => out ++ Delimiter ++ y) rest x)
  end.

(** std::regex_search on the rest of a string: positions are relative to the
    beginning of the rest; sub-matches which did not participate are [None].
    The string is assumed to be terminated where StringRef ends. *)
Record cmatch := mkMatch {
  mStart : nat; mLen : nat; mSub : list (option (nat * nat)) }.
Variable regex_search : str -> option cmatch.

Definition slice (s : str) (p : nat * nat) : str := firstn (snd p) (skipn (fst p) s).
(** Utils.cpp 47-54 and 56-63: tokens of one match. *)
Definition matchTokens (s : str) (m : cmatch) : list str :=
  let subs := flat_map (fun o => match o with Some p => [slice s p] | None => [] end)
                       (mSub m) in
  match subs with
  | [] => [slice s (mStart m, mLen m)]
  | _ => subs
  end.
(** Utils.cpp 41-66, tokenize.  [None]: out of fuel. *)
Fixpoint tokenize (fuel : nat) (s : str) : option (list str) :=
  match fuel with
  | O => None
  | S f =>
    match regex_search s with
    | None => Some []
    | Some m =>
      match tokenize f (skipn (mStart m + mLen m) s) with
      | None => None
      | Some ts => Some (matchTokens s m ++ ts)
      end
    end
  end.
End Strings.
Arguments join {char}.
Arguments tokenize {char}.
Arguments slice {char}.
Arguments matchTokens {char}.

(** ** Registration of items *)

(** An item: the index of its type in Tys and the value. *)
Definition item := (nat * nat)%type.
Definition item_eqb (a b : item) : bool :=
  Nat.eqb (fst a) (fst b) && Nat.eqb (snd a) (snd b).
(** ItemRegister.h 138-140: mIdNum and mRegisters; the static map of dense maps
    is one association list.  Identifiers do not overflow. *)
Record register := mkReg { rgNum : nat; rgMap : list (item * nat) }.
(** ItemRegister.h 90 *)
Definition newRegister (FirstId : nat) : register := mkReg FirstId [].
(** ItemRegister.h 116-119, findItem *)
Fixpoint findIn (m : list (item * nat)) (x : item) : option nat :=
  match m with
  | [] => None
  | (y, i) :: m => if item_eqb x y then Some i else findIn m x
  end.
Definition findItem (r : register) (x : item) : option nat := findIn (rgMap r) x.
(** ItemRegister.h 96-102, regItem *)
Definition regItem (r : register) (x : item) : register * (nat * bool) :=
  match findItem r x with
  | Some i => (r, (i, false))
  | None => (mkReg (S (rgNum r)) (rgMap r ++ [(x, rgNum r)]), (rgNum r, true))
  end.
(** ItemRegister.h 105 *)
Definition numberOfIDs (r : register) : nat := rgNum r.
(** ItemRegister.h 132-135 *)
Definition clearReg (r : register) (FirstId : nat) : register := mkReg FirstId [].
(** ItemRegister.h 123-126, getID: [None] if the item is not registered, the
    end iterator is dereferenced in this case. *)
Definition getID (r : register) (x : item) : option nat := findItem r x.
