(** Model of memory ranges and of their intersection:
    /repo/include/tsar/Analysis/Memory/MemoryLocationRange.h,
    /repo/lib/Analysis/Memory/MemoryLocationRange.cpp,
    /repo/include/tsar/Analysis/Memory/MemorySetInfo.h.

    Simplifications.
    - uint64_t and int64_t values are integers of Z; the wrap-around of sums and
      products is not modelled.  The one subtraction of indices that wraps for
      realistic inputs (line 163) is modelled modulo 2^64.
    - A base pointer is a number; the null pointer is [None].
    - The linear Diophantine solver (bcl/Equation.h, outside of the repository)
      is a parameter [dio].
    - std::ceil and std::floor of a double quotient (lines 281-286) are exact
      ceiling and floor; this is true of operands below 2^53. *)
From Coq Require Import ZArith Bool List Lia.
Import ListNotations.
Open Scope Z_scope.

(** llvm::LocationSize: a known size, precise or an upper bound, or an unknown
    size after the pointer or around it. *)
Inductive lsize := SKnown (precise : bool) (n : Z) | SAfter | SAny.
Definition hasValue (s : lsize) : bool := match s with SKnown _ _ => true | _ => false end.
Definition getValue (s : lsize) : Z := match s with SKnown _ n => n | _ => 0 end.
Definition precise (n : Z) : lsize := SKnown true n.
Definition lsize_eqb (a b : lsize) : bool :=
  match a, b with
  | SKnown p n, SKnown q m => Bool.eqb p q && (n =? m)
  | SAfter, SAfter => true
  | SAny, SAny => true
  | _, _ => false
  end.

(** MemorySetInfo.h 106-120, sizecmp. *)
Definition sizecmp (L R : lsize) : Z :=
  if lsize_eqb L R then 0
  else if negb (hasValue L) && negb (hasValue R)
       then match L with SAny => 1 | _ => -1 end
  else if negb (hasValue L) then 1
  else if negb (hasValue R) then -1
  else if getValue L <? getValue R then -1
  else if getValue L =? getValue R then 0 else 1.

(** MemoryLocationRange.h 53-63, struct Dimension. *)
Record dim := mkDim { dStart : Z; dStep : Z; dTrip : Z; dSize : Z }.
Definition dim_eqb (a b : dim) : bool :=
  (dStart a =? dStart b) && (dStep a =? dStep b) &&
  (dTrip a =? dTrip b) && (dSize a =? dSize b).
Definition dEnd (d : dim) : Z := dStart d + dStep d * (dTrip d - 1).
Fixpoint dims_eqb (a b : list dim) : bool :=
  match a, b with
  | [], [] => true
  | x :: a, y :: b => dim_eqb x y && dims_eqb a b
  | _, _ => false
  end.

(** llvm::AAMDNodes: the empty key, the tombstone key or some nodes. *)
Inductive tags := TEmpty | TTomb | TNode (n : nat).
Definition tags_eqb (a b : tags) : bool :=
  match a, b with
  | TEmpty, TEmpty | TTomb, TTomb => true
  | TNode n, TNode m => Nat.eqb n m
  | _, _ => false
  end.

(** MemoryLocationRange.h 43-70, struct MemoryLocationRange; the bits of Kind
    (45-51) are three booleans. *)
Record range := mkRange {
  rPtr : option nat; rLo : lsize; rHi : lsize; rDims : list dim; rTags : tags;
  rNonCollapsable : bool; rCollapsed : bool; rHint : bool }.
Definition ptr_eqb (a b : option nat) : bool :=
  match a, b with
  | Some x, Some y => Nat.eqb x y | None, None => true | _, _ => false
  end.
Definition kind_eqb (a b : range) : bool :=
  Bool.eqb (rNonCollapsable a) (rNonCollapsable b) &&
  Bool.eqb (rCollapsed a) (rCollapsed b) && Bool.eqb (rHint a) (rHint b).
(** MemoryLocationRange.h 166-170, operator==. *)
Definition range_eqb (a b : range) : bool :=
  ptr_eqb (rPtr a) (rPtr b) && tags_eqb (rTags a) (rTags b) &&
  lsize_eqb (rLo a) (rLo b) && lsize_eqb (rHi a) (rHi b) &&
  dims_eqb (rDims a) (rDims b) && kind_eqb a b.

Definition setBounds (r : range) (lo hi : lsize) : range :=
  mkRange (rPtr r) lo hi (rDims r) (rTags r) (rNonCollapsable r) (rCollapsed r) (rHint r).
Definition setDims (r : range) (ds : list dim) : range :=
  mkRange (rPtr r) (rLo r) (rHi r) ds (rTags r) (rNonCollapsable r) (rCollapsed r) (rHint r).
Definition setTags (r : range) (t : tags) : range :=
  mkRange (rPtr r) (rLo r) (rHi r) (rDims r) t (rNonCollapsable r) (rCollapsed r) (rHint r).
(** MemorySetInfo.h 300-303, setNonCollapsable. *)
Definition setNonCollapsable (r : range) : range :=
  mkRange (rPtr r) (rLo r) (rHi r) (rDims r) (rTags r) true false (rHint r).

Fixpoint setNth {A} (i : nat) (x : A) (l : list A) : list A :=
  match l, i with
  | [], _ => []
  | _ :: l, O => x :: l
  | y :: l, S i => y :: setNth i x l
  end.

(** MemoryLocationRange.cpp 54-86, difference.  [None]: the threshold is
    exceeded. *)
Definition centers (D I : dim) (n : nat) : list dim :=
  map (fun J => mkDim (dStart I + dStep D * (Z.of_nat J + 1)) (dStep I)
                      (dTrip I - 1) (dSize D)) (seq 0 n).
Definition difference (D I : dim) (Threshold : Z) : option (list dim) :=
  let left := if dStart D <? dStart I
              then [mkDim (dStart D) (dStep D) ((dStart I - dStart D) / dStep D) (dSize D)]
              else [] in
  let right := if dEnd D >? dEnd I
               then [mkDim (dEnd I + dStep D) (dStep D) ((dEnd D - dEnd I) / dStep D) (dSize D)]
               else [] in
  if dTrip I >? 1 then
    let n := dStep I / dStep D - 1 in
    if n >? Threshold then None
    else Some (left ++ right ++ centers D I (Z.to_nat n))
  else Some (left ++ right).

(** MemoryLocationRange.cpp 114-175, delinearize.  The loop over dimensions
    runs from the last dimension to the first one; the result of a suffix is
    the list of its new dimensions and the flag HasPartialCoverage; [None] is
    the early return of line 158. *)
Definition sizeInBytes (E : Z) (ds : list dim) : Z :=
  fold_right (fun d s => dSize d * s) E ds.
Definition idxOf (Off Cur Next : Z) : Z :=
  if Cur >? 0 then (Off mod Cur) / Next else Off / Next.
Fixpoint delinDims (E Lower Last : Z) (ds : list dim) : option (list dim * bool) :=
  match ds with
  | [] => Some ([], false)
  | d :: ds' =>
      match delinDims E Lower Last ds' with
      | None => None
      | Some (res, partial) =>
          let Cur := sizeInBytes E (d :: ds') in
          let Next := sizeInBytes E ds' in
          let li := idxOf Lower Cur Next in
          let ui := idxOf Last Cur Next in
          if partial then
            if negb (li =? ui) then None
            else Some (mkDim li 1 1 (dSize d) :: res, true)
          else
            Some (mkDim li 1 ((ui - li + 1) mod 2 ^ 64) (dSize d) :: res,
                  negb (li =? 0) || negb (ui + 1 =? dSize d))
      end
  end.
(* lines 118-136: the reasons not to try *)
Definition delinearize (From What : range) : range :=
  if rNonCollapsable What || negb (rCollapsed From) then What
  else if negb (hasValue (rLo What)) || negb (hasValue (rHi What)) then What
  else
  let Lower := getValue (rLo What) in
  let Upper := getValue (rHi What) in
  if Lower >=? Upper then What
  else match rDims From with
  | [] => What
  | _ =>
      let E := getValue (rHi From) in
      if negb (Lower mod E =? 0) || negb (Upper mod E =? 0) then What
      else match delinDims E Lower (Upper - E) (rDims From) with
      | None => What
      | Some (ds, _) =>
          mkRange (rPtr What) (precise 0) (precise E) ds (rTags What)
                  false true (rHint What)
      end
  end.

(** Result of an intersection: None, an unknown intersection (a location with
    a null pointer), the exact intersection; and what is appended to the
    lists of complements LC and RC. *)
Inductive ires := INone | IMaybe | IExact (r : range).

(** MemoryLocationRange.cpp 177-219, intersectScalar. *)
Definition scalarCompl (X : range) (lo hi : Z) : list range :=
  (if getValue (rLo X) <? lo then [setBounds X (rLo X) (precise lo)] else []) ++
  (if getValue (rHi X) >? hi then [setBounds X (precise hi) (rHi X)] else []).
Definition intersectScalar (L R : range) (wl wr : bool)
    : ires * list range * list range :=
  if negb (ptr_eqb (rPtr L) (rPtr R)) then (INone, [], [])
  else if negb (hasValue (rLo L)) || negb (hasValue (rHi L)) ||
          negb (hasValue (rLo R)) || negb (hasValue (rHi R)) then
    if (hasValue (rHi L) && hasValue (rLo R) && (getValue (rHi L) <=? getValue (rLo R)))
       || (hasValue (rLo L) && hasValue (rHi R) && (getValue (rLo L) >=? getValue (rHi R)))
    then (INone, [], []) else (IMaybe, [], [])
  else if (getValue (rHi L) >? getValue (rLo R)) && (getValue (rLo L) <? getValue (rHi R)) then
    let lo := Z.max (getValue (rLo L)) (getValue (rLo R)) in
    let hi := Z.min (getValue (rHi L)) (getValue (rHi R)) in
    (IExact (setBounds L (precise lo) (precise hi)),
     (if wl then scalarCompl L lo hi else []), (if wr then scalarCompl R lo hi else []))
  else (INone, [], []).

Section Dio.
(** The solver of K1*X - K2*Y = C: no solution or X = A + B*t, Y = C' + D*t. *)
Variable dio : Z -> Z -> Z -> option (Z * Z * Z * Z).

Definition ceilDiv (a b : Z) : Z := - ((- a) / b).

(** MemoryLocationRange.cpp 257-308, the intersection of a pair of dimensions. *)
Definition dimIntersect (L R : dim) : option dim :=
  if (dEnd L <? dStart R) || (dEnd R <? dStart L) then None
  else
  match dio (dStep L) (dStep R) (dStart R - dStart L) with
  | None => None
  | Some (A, B, C, D) =>
      let TXmin := ceilDiv (0 - A) B in
      let TXmax := (dTrip L - 1 - A) / B in
      let TYmin := ceilDiv (0 - C) D in
      let TYmax := (dTrip R - 1 - C) / D in
      let Tmin := Z.max TXmin TYmin in
      let Tmax := Z.min TXmax TYmax in
      if Tmax <? Tmin then None
      else
        let Step := dStep L * B in
        Some (mkDim ((dStep L * A + dStart L) + Step * Tmin) Step (Tmax - Tmin + 1) (dSize L))
  end.

(** MemoryLocationRange.cpp 251-335, the loop over dimensions.  [acc] holds the
    dimensions of the intersection found so far, in reverse order. *)
Definition complOf (X : range) (i : nat) (cs : list dim) : list range :=
  map (fun c => setDims X (setNth i c (rDims X))) cs.
Fixpoint interLoop (LHS RHS : range) (wl wr : bool) (Th : Z) (i : nat)
    (ls rs : list dim) (acc : list dim) (LC RC : list range)
    : ires * list range * list range :=
  match ls, rs with
  | L :: ls, R :: rs =>
      if negb (dSize L =? dSize R) then (IMaybe, LC, RC)
      else match dimIntersect L R with
      | None => (INone, LC, RC)
      | Some X =>
          match (if wl then difference L X Th else Some []) with
          | None => (IMaybe, LC, RC)
          | Some cl =>
              let LC' := LC ++ complOf LHS i cl in
              match (if wr then difference R X Th else Some []) with
              | None => (IMaybe, LC', RC)
              | Some cr =>
                  interLoop LHS RHS wl wr Th (S i) ls rs (X :: acc) LC'
                    (RC ++ complOf RHS i cr)
              end
          end
      end
  | _, _ => (IExact (setDims LHS (rev acc)), LC, RC)
  end.

(** MemoryLocationRange.cpp 223-338, intersect. *)
Definition intersectRanges (LHS RHS : range) (wl wr : bool) (Th : Z)
    : ires * list range * list range :=
  if negb (ptr_eqb (rPtr LHS) (rPtr RHS)) then (INone, [], [])
  else
  let LHS := if negb (rCollapsed LHS) && negb (rNonCollapsable LHS) && rCollapsed RHS
             then delinearize RHS LHS else LHS in
  let RHS := if negb (rCollapsed RHS) && negb (rNonCollapsable RHS) && rCollapsed LHS
             then delinearize LHS RHS else RHS in
  if negb (rCollapsed LHS) && negb (rCollapsed RHS) then intersectScalar LHS RHS wl wr
  else if negb (rCollapsed LHS) || negb (rCollapsed RHS) then (IMaybe, [], [])
  else if negb (Nat.eqb (length (rDims LHS)) (length (rDims RHS))) then (IMaybe, [], [])
  else if lsize_eqb (rLo LHS) (rLo RHS) && lsize_eqb (rHi LHS) (rHi RHS) &&
          dims_eqb (rDims LHS) (rDims RHS) then (IExact LHS, [], [])
  else interLoop LHS RHS wl wr Th 0 (rDims LHS) (rDims RHS) [] [] [].
End Dio.

(** MemorySetInfo.h 222-253, areJoinable. *)
Fixpoint joinableDims (ls rs : list dim) : option nat :=
  match ls, rs with
  | L :: ls, R :: rs =>
      if dim_eqb L R then joinableDims ls rs
      else if negb (dStep L =? dStep R)
           || ((dStart L >=? dStart R) && negb ((dStart L - dStart R) mod dStep L =? 0))
           || ((dStart R >=? dStart L) && negb ((dStart R - dStart L) mod dStep L =? 0))
           || ((dEnd L <? dStart R) && negb (dStart R - dEnd L =? dStep L))
           || ((dEnd R <? dStart L) && negb (dStart L - dEnd R =? dStep L))
      then None
      else option_map S (joinableDims ls rs)
  | _, _ => Some O
  end.
Definition areJoinable (L R : range) : bool :=
  if negb (Nat.eqb (length (rDims L)) (length (rDims R))) || negb (kind_eqb L R) then false
  else match rDims L with
  | [] => (sizecmp (rHi L) (rLo R) >=? 0) && (sizecmp (rLo L) (rHi R) <=? 0)
  | _ => match joinableDims (rDims L) (rDims R) with
         | None => false
         | Some n => Nat.leb n 1
         end
  end.

(** MemorySetInfo.h 254-288, join; the joined location and the flag. *)
Definition joinDim (From To : dim) : dim * bool :=
  let '(To1, c1) :=
    if dStart From <? dStart To
    then (mkDim (dStart From) (dStep To)
                (dTrip To + (dStart To - dStart From) / dStep From) (dSize To), true)
    else (To, false) in
  if dEnd From >? dEnd To1
  then (mkDim (dStart To1) (dStep To1)
              (dTrip To1 + (dEnd From - dEnd To1) / dStep From) (dSize To1), true)
  else (To1, c1).
Fixpoint joinDims (From To : list dim) : list dim * bool :=
  match From, To with
  | f :: From, t :: To =>
      let '(t', c) := joinDim f t in
      let '(To', c') := joinDims From To in
      (t' :: To', c || c')
  | _, _ => (To, false)
  end.
Definition joinRanges (What To : range) : range * bool :=
  match rDims To with
  | [] =>
      let c1 := sizecmp (rHi To) (rHi What) <? 0 in
      let hi := if c1 then rHi What else rHi To in
      let c2 := sizecmp (rLo To) (rLo What) >? 0 in
      let lo := if c2 then rLo What else rLo To in
      (setBounds To lo hi, c1 || c2)
  | _ => let '(ds, c) := joinDims (rDims What) (rDims To) in (setDims To ds, c)
  end.
