(** C52: Delinearized subscripts of an array access denote the same element of memory.

    Delinearization represents an address as an element of a multidimensional array: it
    collects indexes of address computations, finds sizes of dimensions, divides indexes
    by sizes of inner dimensions and inserts zeros instead of omitted subscripts.  If an
    access is marked as delinearized then the element with the new subscripts must have
    the offset which was computed by the program. *)
From Coq Require Import ZArith List Bool Lia.
From Verif Require Import SCEVModel SCEVSpec SCEVProof SCEVConcrete DelinModel DelinSpec DelinProof.
Import ListNotations.
Local Open Scope Z_scope.

(** any meaning of casts, which do not occur in examples *)
Definition cI : interp := mkI (fun _ _ z => z) (fun _ _ => 0).

(** *** Collected indexes give the offset of the whole chain of address computations
    (if no structure is accessed and all indexes are used). *)
Theorem C52_indexes : forall Val (isConst isZeroConst : Val -> bool) (val : Val -> Z),
  (forall v, isZeroConst v = true -> val v = 0) ->
  forall GEPs NumberOfDims l, (forall g, In g GEPs -> noStruct g) ->
  extractSubscriptsFromGEPs Val isConst isZeroConst GEPs NumberOfDims = (l, true) ->
  offsetOfTypes (map (fun p => val (fst p)) l) (map snd l) = sum (map (gepOffset val) GEPs).
Proof.
  intros Val c z val H GEPs n l N X. rewrite <- (extract_total Val c z val H GEPs n l N X).
  unfold offsetOfTypes, total. clear X. induction l as [|p l IH]; [reflexivity|]. cbn [map dot]. rewrite IH. reflexivity.
Qed.
Print Assumptions C52_indexes.
(** A[i][2][j] of [10 x [5 x T]]: the second computation is relative to the first one *)
Example C52_indexes_ex :
  let T := TOther 1 4 in
  let chain := [[(7, Some T)]; [(0, Some (TArr 10 (TArr 5 T))); (3, Some (TArr 5 T)); (2, Some T)]] in
  extractSubscriptsFromGEPs Z (fun _ => true) (Z.eqb 0) chain 3 = ([(3, TArr 5 T); (2, T); (7, T)], true) /\
  sum (map (gepOffset (fun x => x)) chain) = 96.
Proof. split; reflexivity. Qed.

(** *** Zeros in an array with constant sizes *)
Theorem C52_extra_zeros_constant : forall I E fuel indexTy dims baseTy r r' ok,
  lastConstDim dims = 0%nat -> length (subs r) = length (types r) ->
  needExtraZero r = true -> (length (subs r) < length dims)%nat -> isDelinearized r = false ->
  cleanRange E fuel indexTy dims baseTy r = Ok (r', ok) -> isDelinearized r' = true ->
  forall e, dot (map (ev I e) (subs r')) (elemSizes baseTy) = offsetOfTypes (map (ev I e) (subs r)) (types r).
Proof.
  intros I E fuel indexTy dims baseTy r r' ok L0 LT NZ Hl ND H Hd e. unfold cleanRange in H. rewrite L0, NZ in H.
  destruct (length dims - length (subs r))%nat as [|x] eqn:Ex; [lia|].
  destruct (addExtraConstZero indexTy (subs r) (types r) (S x) baseTy 0 []) as [[] New] eqn:EA; injection H as <- <-; [|congruence].
  destruct (addExtraConst_ok I indexTy e _ _ _ _ _ _ LT EA) as (add & -> & Q). exact Q.
Qed.
Print Assumptions C52_extra_zeros_constant.
(** *(A[i])[j] is A[i][0][j] for int A[9][10][20] *)
Example C52_extra_zeros_constant_ex :
  let T := TOther 1 4 in
  let r := mkRange [Unk 0; Unk 1] [TArr 10 (TArr 20 T); T] true true false false in
  let dims := [Cst 64 9; Cst 64 10; Cst 64 20] in
  lastConstDim dims = 0%nat /\
  cleanRange cSE 9 64 dims (TArr 9 (TArr 10 (TArr 20 T))) r =
  Ok (mkRange [Unk 0; Cst 64 0; Unk 1] [TArr 10 (TArr 20 T); T] true true false true, true).
Proof. split; vm_compute; reflexivity. Qed.

(** *** Variable sizes, all subscripts are present.  Types of indexes agree with
    dimensions: the elements of variable dimensions are sequences of constant ones, all
    divisions are reliable. *)
Theorem C52_variable_partial : forall I M E, sound I M E ->
  forall fuel indexTy dims baseTy r r' es e,
  lastConstDim dims <> 0%nat -> noGEP r = false -> needExtraZero r = false -> isDelinearized r = false ->
  length (types r) = length (subs r) -> (length (subs r) <= length dims)%nat ->
  (forall k, (k < length (subs r))%nat -> nth k (map sizeT (types r)) 0 =
     if Nat.ltb k (lastConstDim dims) then prod (skipn (lastConstDim dims) (map (ev I e) dims)) * es
     else stride (map (ev I e) dims) es k) ->
  cleanRange E fuel indexTy dims baseTy r = Ok (r', true) -> isDelinearized r' = true ->
  cong M (offsetOfElement (map (ev I e) (subs r')) (map (ev I e) dims) es)
         (offsetOfTypes (map (ev I e) (subs r)) (types r)).
Proof. intros I M E SD fuel indexTy dims baseTy r r' es e. exact (clean_full I M E SD fuel indexTy dims baseTy r r' es e). Qed.
Print Assumptions C52_variable_partial.
(** A[i][j][k] of T A[?][n][8]: i * n is divided by n *)
Example C52_variable_ex : forall e,
  let T := TOther 1 4 in
  let r := mkRange [Rec [Cst 64 0; Unk 2] 0; Unk 1; Unk 3] [TArr 8 T; TArr 8 T; T] true false false false in
  let dims := [CNC; Unk 2; Cst 64 8] in
  lastConstDim dims = 2%nat /\
  (forall k, (k < 3)%nat -> nth k (map sizeT (types r)) 0 =
     if Nat.ltb k 2 then prod (skipn 2 (map (ev cI e) dims)) * 4 else stride (map (ev cI e) dims) 4 k) /\
  cleanRange cSE 9 64 dims T r =
  Ok (mkRange [Rec [Cst 64 0; Cst 64 1] 0; Unk 1; Unk 3] [TArr 8 T; TArr 8 T; T] true false false true, true).
Proof.
  intros e. split; [reflexivity|]. split; [|vm_compute; reflexivity].
  intros [|[|[|k]]] H; try reflexivity. lia.
Qed.

(** *** Variable sizes of all dimensions, omitted subscripts.  Missing: one more omitted
    subscript (see below), constant dimensions. *)
Theorem C52_variable_zeros_partial : forall I M E, sound I M E ->
  forall fuel indexTy dims baseTy r r' es e,
  lastConstDim dims = length dims -> noGEP r = false -> needExtraZero r = true -> isDelinearized r = false ->
  length (types r) = length (subs r) -> (length dims - 1 <= length (subs r) <= length dims)%nat ->
  (forall t, In t (types r) -> exists i, t = TOther i es) ->
  cleanRange E fuel indexTy dims baseTy r = Ok (r', true) -> isDelinearized r' = true ->
  cong M (offsetOfElement (map (ev I e) (subs r')) (map (ev I e) dims) es)
         (offsetOfTypes (map (ev I e) (subs r)) (types r)).
Proof. intros I M E SD fuel indexTy dims baseTy r r' es e. exact (clean_variable I M E SD fuel indexTy dims baseTy r r' es e). Qed.
Print Assumptions C52_variable_zeros_partial.
(** A[0][i][j], A[i][0][j] and A[i][j][0] of T A[?][n][m] *)
Example C52_variable_zeros_ex :
  let T := TOther 1 4 in
  let r a b d := mkRange [a; b] [T; T] true true false d in
  let dims := [CNC; Unk 2; Unk 3] in
  let n := Unk 2 in let m := Unk 3 in let z := Cst 64 0 in
  lastConstDim dims = length dims /\
  cleanRange cSE 9 64 dims T (r (Mul [Unk 0; m]) (Unk 1) false) =
    Ok (mkRange [z; Unk 0; Unk 1] [T; T] true true false true, true) /\
  cleanRange cSE 9 64 dims T (r (Mul [Unk 0; n; m]) (Unk 1) false) =
    Ok (mkRange [Unk 0; z; Unk 1] [T; T] true true false true, true) /\
  cleanRange cSE 9 64 dims T (r (Mul [Unk 0; n; m]) (Mul [Unk 1; m]) false) =
    Ok (mkRange [Unk 0; Unk 1; z] [T; T] true true false true, true).
Proof. repeat split; vm_compute; reflexivity. Qed.

(** *** Sizes of dimensions.  If remainders are zero then the product of sizes of a dimension
    and of inner dimensions divides all subscripts of outer dimensions.  Missing: remainders
    are not checked by the code (see below). *)
Theorem C52_sizes_partial : forall I M E, sound I M E ->
  forall fuel order, (forall l x, In x l -> In x (order l)) ->
  forall inv hasLoops conv, (forall e s, cong M (ev I e (conv s)) (ev I e s)) ->
  forall rs dims, (forall r s, In r rs -> complete r -> In s (subs r) -> simple E s) ->
  forall D indexTy sizes,
  sizesLoop E fuel order inv hasLoops conv rs dims D (Cst indexTy 1) [] true = Ok (Some sizes, true) ->
  length sizes = D /\
  forall J, (1 <= J <= D)%nat -> nth J dims None = None ->
  forall r k, In r rs -> complete r -> (k < J)%nat -> (k < length (subs r))%nat ->
  forall e, exists q, cong M (ev I e (nth k (subs r) CNC)) (prod (map (ev I e) (skipn (J - 1) sizes)) * q).
Proof.
  intros I M E SD fuel order O inv hl conv C rs dims A D ty sizes H.
  destruct (sizesLoop_ok I M E SD fuel order O inv hl conv C rs dims A D _ _ _ _ H) as (_ & new & -> & L & HJ).
  rewrite app_nil_r. split; [exact L|]. intros J HJ1 Hn r k Hr Cr Hk Hl e.
  destruct (HJ J HJ1 Hn r k Hr Cr Hk Hl e) as [q Hq]. exists q. eapply cong_trans; [exact Hq|].
  cbn [ev]. apply cong_eq. ring.
Qed.
Print Assumptions C52_sizes_partial.
(** A[i*n*m + j*m + k]: sizes are n and m *)
Example C52_sizes_ex :
  let T := TOther 1 4 in
  let r := mkRange [Mul [Unk 0; Unk 2; Unk 3]; Mul [Unk 1; Unk 3]; Unk 4] [T; T; T] true false false false in
  sizesLoop cSE 9 (fun l => l) (fun s => sceq s (Unk 2) || sceq s (Unk 3)) true (fun s => s) [r] [Some CNC; None; None] 2 (Cst 64 1) [] true
  = Ok (Some [Unk 2; Unk 3], true) /\
  (forall s, In s (subs r) -> simple cSE s).
Proof.
  split; [vm_compute; reflexivity|].
  intros s S. change (In s [Mul [Unk 0; Unk 2; Unk 3]; Mul [Unk 1; Unk 3]; Unk 4]) in S. split.
  - intros l L H. repeat match goal with
         | H : In _ (_ :: _) |- _ => destruct H as [H|H]; subst
         | H : In _ [] |- _ => destruct H
         | H : sub (Rec _ _) _ |- _ => inversion H; clear H; subst
         end.
  - intros l L H. repeat (destruct S as [<-|S]; [vm_compute in H; discriminate|]). destruct S.
Qed.

(** *** Refutations *)
(** The loop over dimensions is bounded by the number of subscripts, inserted zeros are not
    counted: two omitted subscripts of T A[?][n][m][k] and the address i * k + j give
    A[0][0][i*k][j]. *)
Theorem C52_two_zeros_refuted : exists dims r r' e,
  lastConstDim dims = length dims /\ noGEP r = false /\ needExtraZero r = true /\ isDelinearized r = false /\
  length (types r) = length (subs r) /\ (forall t, In t (types r) -> exists i, t = TOther i 4) /\
  cleanRange cSE 9 64 dims (TOther 1 4) r = Ok (r', true) /\ isDelinearized r' = true /\
  offsetOfTypes (map (ev cI e) (subs r)) (types r) = 4 * (5 * 3 + 1) /\
  offsetOfElement (map (ev cI e) (subs r')) (map (ev cI e) dims) 4 = 4 * (5 * 3 * 3 + 1).
Proof.
  exists [CNC; Unk 2; Unk 3; Unk 4].
  exists (mkRange [Mul [Unk 0; Unk 4]; Unk 1] [TOther 1 4; TOther 1 4] true true false false).
  exists (mkRange [Cst 64 0; Cst 64 0; Mul [Unk 0; Unk 4]; Unk 1] [TOther 1 4; TOther 1 4] true true false true).
  exists (mkEnv (fun v => match v with 0%nat => 5 | 1%nat => 1 | 4%nat => 3 | _ => 7 end) (fun _ => 0%nat)).
  repeat split; try (vm_compute; reflexivity). intros t [<-|[<-|[]]]; exists 1%nat; reflexivity.
Qed.
Print Assumptions C52_two_zeros_refuted.
(** A zero between variable and constant dimensions is never inserted: A[i][0][j] of
    T A[?][n][3] becomes A[i][j]. *)
Theorem C52_border_zero_refuted : exists dims r r' e,
  lastConstDim dims = 2%nat /\ noGEP r = false /\ needExtraZero r = true /\ isDelinearized r = false /\
  types r = [TArr 3 (TOther 1 4); TOther 1 4] /\
  map (ev cI e) dims = [0; 7; 3] /\
  cleanRange cSE 9 64 dims (TOther 1 4) r = Ok (r', true) /\ isDelinearized r' = true /\
  length (subs r') = 2%nat /\
  offsetOfTypes (map (ev cI e) (subs r)) (types r) = offsetOfElement [5; 0; 1] [0; 7; 3] 4 /\
  offsetOfElement (map (ev cI e) (subs r')) [0; 7; 3] 4 = offsetOfElement [5; 1; 0] [0; 7; 3] 4 /\
  offsetOfElement [5; 1; 0] [0; 7; 3] 4 <> offsetOfElement [5; 0; 1] [0; 7; 3] 4.
Proof.
  exists [CNC; Unk 2; Cst 64 3].
  exists (mkRange [Mul [Unk 0; Unk 2]; Unk 1] [TArr 3 (TOther 1 4); TOther 1 4] true true false false).
  exists (mkRange [Unk 0; Unk 1] [TArr 3 (TOther 1 4); TOther 1 4] true true false true).
  exists (mkEnv (fun v => match v with 0%nat => 5 | 1%nat => 1 | _ => 7 end) (fun _ => 0%nat)).
  repeat split; try (vm_compute; reflexivity). vm_compute. discriminate.
Qed.
Print Assumptions C52_border_zero_refuted.
(** Types of indexes are not checked if all sizes are constant and the number of indexes is equal
    to the number of dimensions: the address A + i + j becomes A[i][j]. *)
Theorem C52_constant_types_refuted : exists dims r r' e,
  lastConstDim dims = 0%nat /\ length (subs r) = length dims /\ isDelinearized r = false /\
  cleanRange cSE 9 64 dims (TArr 10 (TArr 10 (TOther 1 4))) r = Ok (r', true) /\ isDelinearized r' = true /\
  offsetOfTypes (map (ev cI e) (subs r)) (types r) = 4 * (2 + 3) /\
  offsetOfElement (map (ev cI e) (subs r')) (map (ev cI e) dims) 4 = 4 * (2 * 10 + 3).
Proof.
  exists [Cst 64 10; Cst 64 10], (mkRange [Unk 0; Unk 1] [TOther 1 4; TOther 1 4] true false false false).
  exists (mkRange [Unk 0; Unk 1] [TOther 1 4; TOther 1 4] true false false true).
  exists (mkEnv (fun v => match v with 0%nat => 2 | _ => 3 end) (fun _ => 0%nat)).
  repeat split; vm_compute; reflexivity.
Qed.
Print Assumptions C52_constant_types_refuted.
(** The size is a quotient and the remainder is not checked: if the inner size is known
    to be k and the subscript is m * i then the size of the outer dimension is 0 and
    the array is delinearized.  After that a division of a constant subscript by this size has
    no result (a division by zero). *)
Theorem C52_zero_size_refuted : exists r rs sizes ok e,
  complete r /\ In r rs /\
  sizesLoop cSE 9 (fun l => l) (fun _ => true) true (fun s => s) rs [Some CNC; None; Some (Unk 3)] 2 (Cst 64 1) [] true = Ok (Some sizes, ok) /\
  map (ev cI e) sizes = [0; 8] /\
  (forall q, ev cI e (nth 0 (subs r) CNC) <> prod (map (ev cI e) sizes) * q) /\
  cleanRange cSE 9 64 (CNC :: sizes) (TOther 1 4)
    (mkRange [Cst 64 5; Unk 0] [TOther 1 4; TOther 1 4] true true false false) = Undef.
Proof.
  pose (r := mkRange [Rec [Cst 64 0; Unk 2] 0; Unk 0; Unk 1] [TOther 1 4; TOther 1 4; TOther 1 4] true false false false).
  exists r, [r], [Cst 64 0; Unk 3], false, (mkEnv (fun v => match v with 3%nat => 8 | 2%nat => 5 | _ => 1 end) (fun _ => 1%nat)).
  split; [split; reflexivity|]. split; [left; reflexivity|].
  split; [vm_compute; reflexivity|]. split; [vm_compute; reflexivity|]. split; [|vm_compute; reflexivity].
  intros q H. vm_compute in H. discriminate.
Qed.
Print Assumptions C52_zero_size_refuted.
