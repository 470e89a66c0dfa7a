(** Specification vocabulary for the answer of the dependence analysis about two
    accesses. *)
From Coq Require Import ZArith Bool List Arith Relations.
From Verif Require Import DepModel DepSpec MIVModel MIVSpec DepDriverModel.
Import ListNotations.
Local Open Scope Z_scope.

Section S.
Context {Env : Type}.

(** Iteration [x] of the source and iteration [y] of the destination have equal
    linear subscripts. *)
Definition collide (e : Env) (subs : list (subscript Env)) (x y : loop -> Z) : Prop :=
  forall Src Dst, In (Linear _ Src Dst) subs -> conflict e Src Dst x y.

(** Recurrences belong to loops around the access; each loop occurs at most once. *)
Definition wellFormed (srcNest dstNest : list loop) (subs : list (subscript Env)) : Prop :=
  forall Src Dst, In (Linear _ Src Dst) subs ->
    chainOk Src /\ chainOk Dst /\
    incl (map fst (eRecs _ Src)) srcNest /\ incl (map fst (eRecs _ Dst)) dstNest.

(** Equality of pointers means equality of values; constants are unique. *)
Record soundSame (Or : oracle Env) (same : scev Env -> scev Env -> bool) : Prop := {
  ss_eq : forall a b, same a b = true -> forall e, a e = b e;
  ss_const : forall a b c, seConst _ Or a = Some c -> seConst _ Or b = Some c -> same a b = true;
  ss_neg : forall a b c, seConst _ Or a = Some c -> seConst _ Or b = Some (- c) ->
    same a (scNeg _ b) = true }.

(** What the tests of a single subscript need (see C26-C30): steps are not zero and
    their signs are known, numbers are small for [Bits]-bit arithmetic ([m]
    bounds the iterations), different constant steps are coprime. *)
Record tame (Or : oracle Env) (Bits m : Z) (e : Env) (Src Dst : expr Env) : Prop := {
  t_step : forall L a, In (L, a) (eRecs _ Src ++ eRecs _ Dst) ->
    a e <> 0 /\ (seNonNeg _ Or a = true \/ forall e', a e' <= 0);
  t_small : forall L a L' b, In (L, a) (eRecs _ Src ++ eRecs _ Dst) ->
    In (L', b) (eRecs _ Src ++ eRecs _ Dst) ->
    (Z.abs (a e) + Z.abs (b e)) * (Z.abs (eStart _ Dst e - eStart _ Src e) + 1) + m + 1
      < 2 ^ (Bits - 1);
  t_coprime : forall L a b AM BM, eRecs _ Src = [(L, a)] -> eRecs _ Dst = [(L, b)] ->
    seConst _ Or a = Some AM -> seConst _ Or b = Some BM -> AM <> BM -> AM <> - BM ->
    Z.gcd AM BM = 1 }.

(** Only pairs with at most two recurrences are tested by tests of a single
    subscript which need this. *)
Definition tameSimple (Or : oracle Env) (Bits m : Z) (e : Env) (Src Dst : expr Env) : Prop :=
  (length (eRecs _ Src ++ eRecs _ Dst) <= 2)%nat -> tame Or Bits m e Src Dst.

(** All the iterations of the nest and constant bounds of loops are at most [m]. *)
Definition boundedBy (UB : loop -> option (scev Env)) (m : Z) (e : Env) (nest : list loop)
    (x : loop -> Z) : Prop :=
  forall L, In L nest -> x L <= m /\ forall U, UB L = Some U -> U e <= m.

(** Directions and distances of the answer are right for the pair of iterations. *)
Definition rightFor (common : list loop) (dv : nat -> dventry Env) (e : Env) (x y : loop -> Z)
    : Prop :=
  forall K L, atDepth common K L ->
    dirAdmits (dvDir _ (dv K)) (x L) (y L) /\ distOk (dv K) e (x L) (y L).

(** The two iterations differ in a common loop. *)
Definition carried (common : list loop) (x y : loop -> Z) : Prop :=
  exists L, In L common /\ x L <> y L.

(** The subscript mentions the loop. *)
Definition mentions (sub : subscript Env) (L : loop) : Prop :=
  match sub with
  | Linear _ Src Dst => In L (map fst (eRecs _ Src)) \/ In L (map fst (eRecs _ Dst))
  | NonLinear _ _ => False
  end.
(** A subscript which mentions two loops shares no loop with other subscripts. *)
Definition looselyCoupled (subs : list (subscript Env)) : Prop :=
  forall P P' sub sub' L L1 L2, P <> P' ->
    nth_error subs P = Some sub -> nth_error subs P' = Some sub' ->
    mentions sub L1 -> mentions sub L2 -> L1 <> L2 ->
    mentions sub L -> ~ mentions sub' L.
(** Positions of subscripts which mention the same loop, and chains of such. *)
Definition sharesLoop (subs : list (subscript Env)) (P P' : nat) : Prop :=
  exists sub sub' L, nth_error subs P = Some sub /\ nth_error subs P' = Some sub' /\
    mentions sub L /\ mentions sub' L.
Definition connected (subs : list (subscript Env)) : nat -> nat -> Prop :=
  clos_refl_trans nat (sharesLoop subs).

(** ** The course of the analysis: all the states before, between and after its steps *)
Fixpoint course {S} (f : nat -> S -> res S) (l : list nat) (s : S) : list S :=
  s :: match l with
       | [] => []
       | k :: l => match f k s with Go s' => course f l s' | _ => [] end
       end.
Section C.
Variables (Or : oracle Env) (Q : miv Env) (same : scev Env -> scev Env -> bool)
  (UB : loop -> option (scev Env)) (Bits : Z) (srcNest dstNest : list loop)
  (outDepth : loop -> nat) (lv : levels).
Let siv := sivStep _ Or Q same UB Bits srcNest dstNest outDepth lv.
Let prop := propStep _ Or Q srcNest dstNest outDepth lv.
Fixpoint courseOfRounds (n fuel : nat) (s : st Env) : list (st Env) :=
  s :: if anyBits n (sSivs _ s) then
         match fuel with
         | O => []
         | S fuel =>
           course siv (setBits n (sSivs _ s)) (clearChanged _ s) ++
           match forEach siv (setBits n (sSivs _ s)) (clearChanged _ s) with
           | Go s1 =>
             if sChanged _ s1 then
               course prop (setBits n (sMivs _ s1)) s1 ++
               match forEach prop (setBits n (sMivs _ s1)) s1 with
               | Go s2 => courseOfRounds n fuel s2
               | _ => []
               end
             else courseOfRounds n fuel s1
           | _ => []
           end
         end
       else [].
Fixpoint courseOfGroups (n : nat) (l : list nat) (s : st Env) : list (st Env) :=
  match l with
  | [] => []
  | SI :: l => courseOfRounds n (S n) (groupStart _ SI s) ++
               match groupStep _ Or Q same UB Bits srcNest dstNest outDepth lv n SI s with
               | Go s' => courseOfGroups n l s'
               | _ => []
               end
  end.
(** States of the analysis of coupled subscripts. *)
Definition courseOf (subs : list (subscript Env)) : list (st Env) :=
  let n := length subs in
  match initPairs _ srcNest dstNest outDepth lv 0 subs with
  | None => []
  | Some l =>
    let pt := partition _ lv n (asMap _ l) in
    match forEach (sepStep _ Or Q same UB Bits srcNest dstNest outDepth lv (ptPairs _ pt))
            (setBits n (ptSep _ pt)) ((fun _ => dvInit _), (CAny Env, 0%nat)) with
    | Go (dv, nc) => courseOfGroups n (setBits n (ptCpl _ pt)) (groupsStart _ dv nc (ptPairs _ pt))
    | _ => []
    end
  end.
End C.
(** All the pairs of subscripts in a state are tame (if they are simple). *)
Definition tameState (Or : oracle Env) (Bits m : Z) (e : Env) (n : nat) (s : st Env) : Prop :=
  forall P Src Dst, (P < n)%nat -> pSub _ (sPairs _ s P) = Linear _ Src Dst ->
    tameSimple Or Bits m e Src Dst.
End S.
