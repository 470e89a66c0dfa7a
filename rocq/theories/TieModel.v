(** Model of the clause tie of a parallel nest, /repo/lib/Transform/Clang/DVMHSMAutoPar.cpp
    571-620 (optimizeLevelImpl) and 469-568 (sanitizeAcrossLoops).

    Simplifications.
    - Loops and arrays are numbers, arrays are identified by metadata.
    - A distance in a dimension is known or it is not known, its value is not important.
    - A location in a control-flow graph contains directives of a single loop and other directives.
      Locations which become empty are not distinguished from absent ones. *)
From Coq Require Import PeanoNat Bool List ZArith.
Import ListNotations.

Inductive coef := CConst (z : Z) | CSym (s : nat).
Record monom := Monom { mCol : nat; mCoef : coef }.
(* a subscript: a dimension, monoms if it is affine *)
Record sub := Sub { sDim : nat; sAffine : option (list monom) }.
Record access := Access {
  aArr : nat;
  aEstimate : bool;             (* isa<DIEstimateMemory> *)
  aSubs : list (option sub)     (* None: a null pointer *)
}.
(* a loop of the nest and a direction (true: it is not reversed) for each dimension *)
Definition mapping := list (option nat * bool).

Fixpoint setNth (d : nat) (x : option nat * bool) (v : mapping) : mapping :=
  match v, d with
  | [], _ => []
  | _ :: v, 0 => x :: v
  | y :: v, S d => y :: setNth d x v
  end.
Definition mem (x : nat) (l : list nat) : bool := existsb (Nat.eqb x) l.
(** 597-614 *)
Definition isZero (c : coef) : bool := match c with CConst z => Z.eqb z 0 | CSym _ => false end.
Definition isPositive (c : coef) : bool := match c with CConst z => (0 <=? z)%Z | CSym _ => false end.
Definition visitMonom (nest : list nat) (d : nat) (mp : mapping) (m : monom) : mapping :=
  if isZero (mCoef m) then mp
  else if mem (mCol m) nest then setNth d (Some (mCol m), isPositive (mCoef m)) mp
  else mp.
(** 592-616 *)
Definition visitSub (nest : list nat) (mp : mapping) (o : option sub) : mapping :=
  match o with
  | None => mp
  | Some s =>
      match nth_error mp (sDim s) with
      | Some (Some _, _) => mp
      | _ =>
          match sAffine s with
          | Some ms => fold_left (visitMonom nest (sDim s)) ms mp
          | None => mp
          end
      end
  end.
Fixpoint update (arr : nat) (mp : mapping) (maps : list (nat * mapping)) : list (nat * mapping) :=
  match maps with
  | [] => []
  | (a, v) :: maps => if Nat.eqb a arr then (a, mp) :: maps else (a, v) :: update arr mp maps
  end.
(** 574-618: [maps] is DirectAccess *)
Definition visitAccess (nest private : list nat) (maps : list (nat * mapping)) (a : access) : list (nat * mapping) :=
  if aEstimate a && negb (mem (aArr a) private)
  then update (aArr a) (fold_left (visitSub nest) (aSubs a) (repeat (None, true) (length (aSubs a)))) maps
  else maps.
Definition tie (nest private : list nat) (accs : list access) (maps : list (nat * mapping)) : list (nat * mapping) :=
  fold_left (visitAccess nest private) accs maps.

(** 469-568, sanitizeAcrossLoops *)
Inductive item := IActual | IRegion | IParallel | IGetActual | IMarker | IOther (n : nat).
Record place := Place {
  pAcross : list (nat * list (bool * bool));   (* are there distances in a dimension *)
  pMaps : list (nat * mapping);
  pEntry : list item;
  pExit : list item
}.
Definition isItem (a b : item) : bool :=
  match a, b with
  | IActual, IActual | IRegion, IRegion | IParallel, IParallel | IGetActual, IGetActual | IMarker, IMarker => true
  | _, _ => false
  end.
Definition lookup (arr : nat) (maps : list (nat * mapping)) : option mapping :=
  match find (fun p => Nat.eqb (fst p) arr) maps with Some p => Some (snd p) | None => None end.
(* 490-504 *)
Fixpoint untiedDims (ds : list (bool * bool)) (mp : mapping) : bool :=
  match ds with
  | [] => false
  | d :: ds =>
      (fst d || snd d) && match mp with (Some _, _) :: _ => false | _ => true end || untiedDims ds (tl mp)
  end.
(* 481-506 *)
Definition untied (maps : list (nat * mapping)) (p : nat * list (bool * bool)) : bool :=
  match lookup (fst p) maps with None => true | Some mp => untiedDims (snd p) mp end.
Fixpoint removeFirst (k : item) (l : list item) : list item :=
  match l with [] => [] | x :: l => if isItem k x then l else x :: removeFirst k l end.
(* 521-544 *)
Definition cleanExit (l : list item) : list item :=
  if Nat.eqb (length l) 1 || Nat.eqb (length l) 2 && forallb (fun x => isItem IMarker x || isItem IGetActual x) l
  then [] else removeFirst IGetActual (removeFirst IMarker l).
(* 545-566 *)
Definition cleanEntry (l : list item) : list item :=
  if Nat.eqb (length l) 2 ||
     Nat.eqb (length l) 3 && forallb (fun x => isItem IRegion x || isItem IParallel x || isItem IActual x) l
  then [] else removeFirst IActual (removeFirst IParallel (removeFirst IRegion l)).
(** None: a directive which is absent is accessed *)
Definition sanitizeLoop (p : place) : option place :=
  if existsb (isItem IParallel) (pEntry p) && existsb (untied (pMaps p)) (pAcross p)
  then
    if existsb (isItem IMarker) (pExit p) && existsb (isItem IRegion) (pEntry p)
    then Some (Place (pAcross p) (pMaps p) (cleanEntry (pEntry p)) (cleanExit (pExit p)))
    else None
  else Some p.
Fixpoint sanitize (ps : list place) : option (list place) :=
  match ps with
  | [] => Some []
  | p :: ps =>
      match sanitizeLoop p, sanitize ps with Some p, Some ps => Some (p :: ps) | _, _ => None end
  end.
