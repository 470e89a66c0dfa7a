(** Model of parallel nests with regular dependencies,
    /repo/lib/Transform/Clang/DVMHDirecitves.cpp 55-139 (processRegularDependencies) and
    /repo/lib/Transform/Clang/DVMHSMAutoPar.cpp 119-158 (processRegularDependencies), 160-314
    (exploitParallelism), /repo/lib/Transform/Clang/SharedMemoryAutoPar.cpp 183-207 (traversal).

    Simplifications.
    - Loops, variables and arrays are numbers.  Sets of variables are lists, reductions of a loop
      are a single number.
    - Distances of a dependence are pairs (minimal, maximal) of integers, they are known
      (ASTDependenceAnalysis.cpp 217-230 keeps the known prefix only).  Signedness of APSInt is
      not modelled.
    - A loop has at most one inner loop, this is the case in a perfect nest.  Loops which analysis
      is not able to describe (evaluateDependency) stop the traversal.
    - A region, actual and get_actual directives are in DvmhMergeModel.v. *)
From Coq Require Import PeanoNat Bool List ZArith.
Import ListNotations.

Record dep := Dep { dArr : nat; dFlow : list (Z * Z); dAnti : list (Z * Z) }.
(* a subscript: a dimension, is it affine, columns of monoms *)
Record sub := Sub { sDim : nat; sAffine : bool; sCols : list nat }.
Record access := Access { aArr : nat; aSubs : list sub }.
Record level := Level {
  vId : nat;
  vInduct : nat;
  vOk : bool;                (* 165-172: a single induction variable, no first and last private *)
  vHost : bool;              (* isHostOnly *)
  vLocalized : bool;         (* evaluateDefUse *)
  vPrivate : list nat;
  vReduct : nat;
  vStep : option Z;          (* a constant step *)
  vDeps : list dep;
  vAccs : list access;       (* scope_accesses *)
  vPerfect : bool            (* PerfectInfo.count(&IR) && IR.getNumRegions() != 0 *)
}.
Definition range := (option Z * option Z)%type.
(* PragmaParallel *)
Record directive := Directive {
  xInduct : list (nat * nat);
  xPrivate : list nat;
  xReduct : nat;
  xAcross : list (nat * list range);
  xDepth : nat;              (* getPossibleAcrossDepth *)
  xFinal : bool
}.

(** 99-114: monoms of a subscript. [dd] is DependentDim, [other]: AnotherColumn is set. *)
Definition isDim (dd : option nat) (dim : nat) : bool :=
  match dd with Some d => Nat.eqb d dim | None => false end.
Definition isOtherDim (dd : option nat) (dim : nat) : bool :=
  match dd with Some d => negb (Nat.eqb d dim) | None => false end.
Fixpoint scanCols (loop dim : nat) (cols : list nat) (dd : option nat) (other : bool) : option (option nat) :=
  match cols with
  | [] => Some dd
  | c :: cols =>
      if Nat.eqb c loop
      then if other || isOtherDim dd dim then None else scanCols loop dim cols (Some dim) other
      else if isDim dd dim then None else scanCols loop dim cols dd true
  end.
(** 93-116 *)
Fixpoint scanSubs (loop : nat) (ss : list sub) (dd : option nat) : option (option nat) :=
  match ss with
  | [] => Some dd
  | s :: ss =>
      if sAffine s
      then match scanCols loop (sDim s) (sCols s) dd false with
           | Some dd => scanSubs loop ss dd
           | None => None
           end
      else None
  end.
(** 90-116: accesses to an array, NumberOfDims *)
Fixpoint scanAccs (loop : nat) (accs : list access) (dd : option nat) (n : nat) : option (option nat * nat) :=
  match accs with
  | [] => Some (dd, n)
  | a :: accs =>
      match scanSubs loop (aSubs a) dd with
      | Some dd => scanAccs loop accs dd (Nat.max n (length (aSubs a)))
      | None => None
      end
  end.

(** 68-83, updatePAD *)
Fixpoint countOk (m : Z) (ds : list (Z * Z)) : nat :=
  match ds with
  | [] => 0
  | d :: ds => if ((fst d <? 0) && (m <=? - fst d))%Z then 0 else S (countOk m ds)
  end.
Definition updatePAD (ds : list (Z * Z)) (pad : nat) : nat :=
  match ds with [] => pad | d :: ds => Nat.min pad (S (countOk (fst d) ds)) end.
(** 61-67 *)
Definition initialPAD (deps : list dep) : nat :=
  match deps with
  | [] => 0
  | d :: _ => match dFlow d with [] => length (dAnti d) | fs => length fs end
  end.

(** 121-137: a distance vector of an array is created or updated *)
Definition resize (n : nat) (v : list range) : list range := firstn n v ++ repeat (None, None) (n - length v).
Fixpoint setNth (d : nat) (r : range) (v : list range) : list range :=
  match v, d with
  | [], _ => []
  | _ :: v, 0 => r :: v
  | x :: v, S d => x :: setNth d r v
  end.
Fixpoint update (arr n d : nat) (r : range) (m : list (nat * list range)) : list (nat * list range) :=
  match m with
  | [] => [(arr, setNth d r (resize n []))]
  | (a, v) :: m => if Nat.eqb a arr then (a, setNth d r (resize n v)) :: m else (a, v) :: update arr n d r m
  end.
Definition distance (ds : list (Z * Z)) : option Z := match ds with [] => None | d :: _ => Some (snd d) end.
Definition rangeOf (step : Z) (d : dep) : range :=
  if (step <? 0)%Z then (distance (dAnti d), distance (dFlow d)) else (distance (dFlow d), distance (dAnti d)).
(** 84-138: the across clause and the possible depth, 0 if dependencies are not regular. *)
Fixpoint processDeps (loop : nat) (step : Z) (accs : list access) (deps : list dep)
    (m : list (nat * list range)) (pad : nat) : list (nat * list range) * nat :=
  match deps with
  | [] => (m, pad)
  | d :: deps =>
      match filter (fun a => Nat.eqb (aArr a) (dArr d)) accs with
      | [] => (m, 0)
      | xs =>
          match scanAccs loop xs None 0 with
          | Some (Some dim, n) =>
              processDeps loop step accs deps (update (dArr d) n dim (rangeOf step d) m)
                (updatePAD (dAnti d) (updatePAD (dFlow d) pad))
          | _ => (m, 0)
          end
      end
  end.

(** DVMHSMAutoPar.cpp 119-158 *)
Definition regular (l : level) (x : directive) : directive * bool :=
  match vDeps l with
  | [] => (x, true)
  | _ =>
      match vStep l with
      | None => (x, false)
      | Some step =>
          let (m, pad) := processDeps (vId l) step (vAccs l) (vDeps l) (xAcross x) (initialPAD (vDeps l)) in
          if Nat.eqb pad 0
          then (Directive (xInduct x) (xPrivate x) (xReduct x) m (xDepth x) (xFinal x), false)
          else
            let pad := pad + length (xInduct x) in
            (Directive (xInduct x) (xPrivate x) (xReduct x) m
               (if Nat.eqb (xDepth x) 0 then pad else Nat.min (xDepth x) pad) (xFinal x), true)
      end
  end.
Definition finalize (x : directive) : directive :=
  Directive (xInduct x) (xPrivate x) (xReduct x) (xAcross x) (xDepth x) true.
Definition mem (v : nat) (vs : list nat) : bool := existsb (Nat.eqb v) vs.
Definition sameSet (a b : list nat) : bool := forallb (fun v => mem v b) a && forallb (fun v => mem v a) b.
Definition erase (v : nat) (vs : list nat) : list nat := filter (fun u => negb (Nat.eqb u v)) vs.
Definition setPrivate (x : directive) (p : list nat) : directive :=
  Directive (xInduct x) p (xReduct x) (xAcross x) (xDepth x) (xFinal x).
(** 301-313 *)
Definition addLoop (l : level) (x : directive) : directive :=
  let x := Directive (xInduct x ++ [(vId l, vInduct l)]) (xPrivate x) (xReduct x) (xAcross x)
             (xDepth x) (xFinal x) in
  if negb (xFinal x) && (negb (vPerfect l) || negb (Nat.eqb (xDepth x) 0) && Nat.eqb (length (xInduct x)) (xDepth x))
  then finalize x else x.
(** 160-193: a loop inside a parallel one *)
Definition exploitInner (l : level) (x : directive) : directive :=
  if vOk l
  then
    let y := setPrivate x (erase (vInduct l) (xPrivate x)) in
    if vHost l || negb (sameSet (vPrivate l) (xPrivate y)) || negb (Nat.eqb (vReduct l) (xReduct y))
    then finalize (setPrivate y (vInduct l :: xPrivate y))
    else
      let (y, ok) := regular l y in
      if ok then addLoop l y else finalize y
  else finalize x.
(** 160-172 and 194-314: an outermost parallel loop *)
Definition exploitOuter (l : level) : option directive :=
  if vOk l
  then
    let (x, ok) := regular l (Directive [] (vPrivate l) (vReduct l) [] 0 false) in
    if ok
    then Some (addLoop l (if (vHost l || negb (vLocalized l)) && match vDeps l with [] => true | _ => false end
                          then finalize x else x))
    else None
  else None.
Fixpoint inner (ls : list level) (x : directive) : directive :=
  match ls with
  | [] => x
  | l :: ls => if xFinal x then x else inner ls (exploitInner l x)
  end.
(** SharedMemoryAutoPar.cpp 183-207: loops are visited from an outer one to an inner one *)
Definition parallelize (ls : list level) : option directive :=
  match ls with
  | [] => None
  | l :: ls => match exploitOuter l with Some x => Some (inner ls x) | None => None end
  end.
