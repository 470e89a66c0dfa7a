(** Proofs about delinearization. *)
From Coq Require Import ZArith List Bool Arith Lia Ring.
From Verif Require Import SCEVModel SCEVSpec SCEVProof DelinModel DelinSpec.
Import ListNotations.
Local Open Scope Z_scope.

Lemma ltyEq_eq a : forall b, ltyEq a b = true -> a = b.
Proof.
  induction a as [i s|n el IH]; intros [j t|m y]; cbn; try discriminate; rewrite andb_true_iff.
  - intros [H1%Nat.eqb_eq H2%Z.eqb_eq]. congruence.
  - intros [H1%Z.eqb_eq H2%IH]. congruence.
Qed.

Lemma dot_nil_r a : dot a [] = 0.
Proof. destruct a; reflexivity. Qed.
Lemma dot_app a1 b1 a2 b2 : length a1 = length b1 -> dot (a1 ++ a2) (b1 ++ b2) = dot a1 b1 + dot a2 b2.
Proof.
  revert b1. induction a1 as [|x a1 IH]; intros [|y b1]; cbn; try discriminate; [intros _; ring|].
  intros [= H]. rewrite (IH b1 H). ring.
Qed.
Lemma dot_zeros n b : dot (repeat 0 n) b = 0.
Proof. revert b. induction n as [|n IH]; intros [|y b]; cbn [repeat dot]; try reflexivity. rewrite IH. ring. Qed.
Lemma dot_scale a b u : dot a (map (fun x => x * u) b) = dot a b * u.
Proof. revert b. induction a as [|x a IH]; intros [|y b]; cbn [map dot]; try ring. rewrite IH. ring. Qed.
Lemma dot_const a b u : (length a <= length b)%nat -> (forall x, In x b -> x = u) -> dot a b = sum a * u.
Proof.
  revert b. induction a as [|x a IH]; intros [|y b] L H; cbn [dot length] in *; try (unfold sum; cbn; lia).
  rewrite (IH b) by (try lia; intros; apply H; right; assumption). rewrite (H y) by (left; reflexivity).
  unfold sum. cbn [fold_right]. ring.
Qed.
Lemma dot_ext a : forall b b', (length a <= length b)%nat -> (length a <= length b')%nat ->
  (forall i, (i < length a)%nat -> nth i b 0 = nth i b' 0) -> dot a b = dot a b'.
Proof.
  induction a as [|x a IH]; intros [|y b] [|y' b'] L L' H; cbn [length] in *; try lia; [reflexivity..|].
  cbn [dot]. rewrite (IH b b') by (try lia; intros i Hi; exact (H (S i) ltac:(lia))).
  pose proof (H 0%nat ltac:(lia)) as H0. cbn in H0. rewrite H0. reflexivity.
Qed.
Lemma skipn_cons_nth {A} (d : A) l n : (n < length l)%nat -> skipn n l = nth n l d :: skipn (S n) l.
Proof.
  revert l. induction n as [|n IH]; intros [|x l] H; cbn [length] in *; try lia; [reflexivity|].
  cbn [skipn nth]. rewrite (IH l) by lia. reflexivity.
Qed.

(** ** subscripts of an address *)
Section Ex.
Variable Val : Type.
Variables isConst isZeroConst : Val -> bool.
Variable val : Val -> Z.
Hypothesis Hzero : forall v, isZeroConst v = true -> val v = 0.
Definition total (l : list (Val * lty)) : Z := sum (map (fun p => val (fst p) * sizeT (snd p)) l).
Lemma sum_rev l : sum (rev l) = sum l.
Proof. induction l as [|x l IH]; [reflexivity|]. cbn [rev]. rewrite sum_app, IH, sum1. unfold sum. cbn [fold_right]. ring. Qed.
Lemma total_app a b : total (a ++ b) = total a + total b.
Proof. unfold total. rewrite map_app, sum_app. reflexivity. Qed.
Lemma total_rev a : total (rev a) = total a.
Proof. unfold total. rewrite map_rev, sum_rev. reflexivity. Qed.
Lemma arrayPrefix_all g l s : noStruct g -> arrayPrefix Val g = (l, s) -> s = false /\ total l = gepOffset val g.
Proof.
  revert l s. induction g as [|[v [t|]] g IH]; intros l s N; cbn [arrayPrefix].
  - intros [= <- <-]. split; reflexivity.
  - destruct (arrayPrefix Val g) as [l' s'] eqn:E. intros [= <- <-].
    destruct (IH l' s') as [-> T]; [intros p Hp; apply N; right; exact Hp|reflexivity|].
    split; [reflexivity|]. unfold total, gepOffset, sum in *. cbn [map fold_right fst snd]. rewrite T. reflexivity.
  - exfalso. exact (N (v, None) (or_introl eq_refl) eq_refl).
Qed.
Lemma extractOne_total acc g : noStruct g ->
  total (extractOne Val isConst isZeroConst acc g) = total acc + gepOffset val g.
Proof.
  intros N. unfold extractOne.
  assert (G : total (let '(l, s) := arrayPrefix Val g in
    let acc := if s then [] else acc in
    match l with
    | [] => acc
    | (v, t) :: l => let acc := acc ++ rev l in
      if isConst v then (if isZeroConst v then acc else acc ++ [(v, t)]) else acc ++ [(v, t)]
    end) = total acc + gepOffset val g).
  { destruct (arrayPrefix Val g) as [l s] eqn:E. destruct (arrayPrefix_all g l s N E) as [-> T]. rewrite <- T.
    destruct l as [|[v t] l]; [unfold total; cbn; ring|].
    assert (S1 : total ((v, t) :: l) = val v * sizeT t + total l) by reflexivity.
    assert (S2 : total [(v, t)] = val v * sizeT t) by (unfold total; cbn; ring).
    rewrite S1. destruct (isConst v); [destruct (isZeroConst v) eqn:Zv|].
    - rewrite total_app, total_rev, (Hzero v Zv). ring.
    - rewrite !total_app, total_rev, S2. ring.
    - rewrite !total_app, total_rev, S2. ring. }
  destruct g as [|[v [t|]] [|p g]]; try exact G.
  rewrite total_app. unfold total at 2, gepOffset. cbn. ring.
Qed.
Lemma extract_total GEPs n l : (forall g, In g GEPs -> noStruct g) ->
  extractSubscriptsFromGEPs Val isConst isZeroConst GEPs n = (l, true) ->
  total l = sum (map (gepOffset val) GEPs).
Proof.
  intros N. unfold extractSubscriptsFromGEPs.
  assert (G : forall gs acc, (forall g, In g gs -> noStruct g) ->
    total (fold_left (extractOne Val isConst isZeroConst) gs acc) = total acc + sum (map (gepOffset val) gs)).
  { induction gs as [|g gs IH]; intros acc H; cbn [fold_left map].
    - unfold sum. cbn. ring.
    - rewrite IH by (intros; apply H; right; assumption). rewrite extractOne_total by (apply H; left; reflexivity).
      unfold sum. cbn [fold_right]. ring. }
  destruct (_ && _); [discriminate|]. intros [= <-]. rewrite total_rev, (G GEPs [] N). unfold total. cbn. ring.
Qed.
End Ex.

Section P.
Variable I : interp.
Variable M : Z.
Variable E : SE.
Hypothesis SD : sound I M E.
Variable fuel : nat.
Variable indexTy : nat.
Notation V e s := (ev I e s).

Lemma ev_zeros e n : map (ev I e) (repeat (zero indexTy) n) = repeat 0 n.
Proof. induction n as [|n IH]; [reflexivity|]. cbn [repeat map]. rewrite IH. reflexivity. Qed.

(** ** constant dimensions *)
Lemma addExtra_ok e S_ T (LST : length S_ = length T) t : forall Extra Idx New New',
  addExtra indexTy S_ T Extra t Idx New = (true, New') ->
  exists add, New' = New ++ add /\
    dot (map (ev I e) add) (elemSizes t) = offsetOfTypes (map (ev I e) (skipn Idx S_)) (skipn Idx T).
Proof.
  induction t as [i s|n el IH]; intros Extra Idx New New'; cbn [addExtra].
  - intros [= H <-]. apply Nat.eqb_eq in H. exists []. split; [rewrite app_nil_r; reflexivity|].
    rewrite H. rewrite skipn_all. unfold offsetOfTypes. rewrite <- LST, skipn_all. reflexivity.
  - destruct (Nat.ltb_spec Idx (length T)) as [Li|Li].
    + destruct (ltyEq el (nth Idx T el)) eqn:Eq.
      * intros H. apply IH in H. destruct H as (add & -> & H). exists (nth Idx S_ CNC :: add).
        split; [rewrite <- app_assoc; reflexivity|]. apply ltyEq_eq in Eq.
        rewrite (skipn_cons_nth CNC S_ Idx) by lia. rewrite (skipn_cons_nth el T Idx Li). rewrite <- Eq.
        unfold offsetOfTypes in *. cbn [map elemSizes dot]. rewrite H. reflexivity.
      * destruct Extra as [|Extra]; [discriminate|]. intros H. apply IH in H. destruct H as (add & -> & H).
        exists (zero indexTy :: add). split; [rewrite <- app_assoc; reflexivity|].
        cbn [map elemSizes dot]. rewrite H. cbn [zero ev]. ring.
    + intros [= <-]. exists (repeat (zero indexTy) Extra). split; [reflexivity|].
      rewrite ev_zeros, dot_zeros. rewrite !skipn_all2 by lia. reflexivity.
Qed.
Lemma addExtraConst_ok e S_ T Extra t New New' : length S_ = length T ->
  addExtraConstZero indexTy S_ T Extra t 0 New = (true, New') ->
  exists add, New' = New ++ add /\
    dot (map (ev I e) add) (elemSizes t) = offsetOfTypes (map (ev I e) S_) T.
Proof.
  intros LST H. destruct t; [discriminate|]. exact (addExtra_ok e S_ T LST _ _ _ _ _ H).
Qed.

(** ** dimensions with variable sizes *)
Definition weight (L : nat) (dims : list Z) (j : nat) : Z := prod (firstn (L - S j) (skipn (S j) dims)).
Lemma varLoop_ok dims S_ L k : forall Dim Sub Extra New ok Sub' Extra' New' ok',
  varLoop E fuel indexTy dims S_ L k Dim Sub Extra New ok = Ok (Some (Sub', Extra', New', ok')) -> ok' = true ->
  ok = true /\ exists add, New' = New ++ add /\ length add = k /\
    (Sub <= Sub')%nat /\ (Sub' - Sub + (Extra - Extra') = k)%nat /\ (Extra' <= Extra)%nat /\
    forall e, cong M (dot (map (ev I e) add) (map (weight L (map (ev I e) dims)) (seq Dim k)))
                   (sum (map (fun i => V e (nth i S_ CNC)) (seq Sub (Sub' - Sub)))).
Proof.
  induction k as [|k IH]; intros Dim Sub Extra New ok Sub' Extra' New' ok'; cbn [varLoop].
  - intros [= <- <- <- <-] O. split; [exact O|]. exists []. rewrite app_nil_r, Nat.sub_diag.
    repeat split; try lia. intros e. apply cong_refl.
  - destruct (factorLoop _ _ _ _ _) as [d| |] eqn:Ed; cbn [bind]; try discriminate.
    destruct d as [[[Q s] ok1]|].
    + intros H O. apply IH in H; [|exact O]. destruct H as ([O0 O1]%andb_true_iff & add & -> & La & H1 & H2 & H3 & H4).
      split; [exact O0|]. exists (Q :: add). rewrite <- app_assoc. cbn [length].
      split; [reflexivity|]. split; [lia|]. split; [lia|]. split; [lia|]. split; [exact H3|].
      intros e. replace (Sub' - Sub)%nat with (S (Sub' - S Sub)) by lia. cbn [seq map dot].
      unfold sum. cbn [fold_right]. apply cong_add; [|exact (H4 e)].
      pose proof (factorLoop_good I M _ _ (fun N D r => divide_good I M E SD fuel N D r) _ _ _ _ _ _ Ed O1) as [_ G].
      apply cong_sym. eapply cong_trans; [exact (G e)|]. unfold weight.
      rewrite <- skipn_map || rewrite skipn_map. rewrite firstn_map. apply cong_refl.
    + destruct Extra as [|Extra]; [discriminate|]. intros H O. apply IH in H; [|exact O].
      destruct H as (O0 & add & -> & La & H1 & H2 & H3 & H4). split; [exact O0|]. exists (zero indexTy :: add).
      rewrite <- app_assoc. cbn [length]. split; [reflexivity|]. split; [lia|]. split; [exact H1|]. split; [lia|]. split; [lia|].
      intros e. cbn [seq map dot]. cbn [zero ev]. rewrite Z.mul_0_l, Z.add_0_l. exact (H4 e).
Qed.

Lemma stride_weight dims es L j : (S j <= L)%nat -> stride dims es j = weight L dims j * (prod (skipn L dims) * es).
Proof.
  intros H. unfold stride, weight. rewrite <- (firstn_skipn (L - S j) (skipn (S j) dims)) at 1. rewrite prod_app.
  assert (K : forall (A : Type) (x y : nat) (l : list A), skipn x (skipn y l) = skipn (x + y) l).
  { clear. intros A x y. induction y as [|y IH]; intros l; [rewrite Nat.add_0_r; reflexivity|].
    destruct l as [|a l]; [rewrite !skipn_nil; reflexivity|]. rewrite Nat.add_succ_r. cbn [skipn]. apply IH. }
  rewrite K. replace (L - S j + S j)%nat with L by lia. ring.
Qed.
Lemma dot_strides dims es L n a : (n < L)%nat -> length a = n ->
  dot a (map (stride dims es) (seq 0 n)) = dot a (map (weight L dims) (seq 0 n)) * (prod (skipn L dims) * es).
Proof.
  intros H La. rewrite <- dot_scale, map_map. f_equal. apply map_ext_in. intros j Hj. apply in_seq in Hj.
  apply stride_weight. lia.
Qed.
Lemma sum_nth e S_ n : (n <= length S_)%nat ->
  sum (map (fun i => V e (nth i S_ CNC)) (seq 0 n)) = sum (map (ev I e) (firstn n S_)).
Proof.
  intros H. f_equal. revert S_ H. induction n as [|n IH]; intros [|x S_] H; cbn [length] in *; try lia; try reflexivity.
  cbn [seq map firstn]. f_equal. rewrite <- seq_shift, map_map. rewrite <- (IH S_) by lia. reflexivity.
Qed.

Lemma lastConst_le dims : (lastConstDim dims <= length dims)%nat.
Proof. induction dims as [|d dims IH]; [cbn; lia|]. cbn [lastConstDim length]. destruct (lastConstDim dims) as [|n]; [destruct d; lia|lia]. Qed.

(** no subscripts are missing *)
Lemma clean_full dims base r r' es : forall e,
  lastConstDim dims <> O -> noGEP r = false -> needExtraZero r = false -> isDelinearized r = false ->
  length (types r) = length (subs r) -> (length (subs r) <= length dims)%nat ->
  (forall k, (k < length (subs r))%nat -> nth k (map sizeT (types r)) 0 =
     if Nat.ltb k (lastConstDim dims) then prod (skipn (lastConstDim dims) (map (ev I e) dims)) * es
     else stride (map (ev I e) dims) es k) ->
  cleanRange E fuel indexTy dims base r = Ok (r', true) -> isDelinearized r' = true ->
  cong M (offsetOfElement (map (ev I e) (subs r')) (map (ev I e) dims) es)
         (offsetOfTypes (map (ev I e) (subs r)) (types r)).
Proof.
  intros e HL NG NZ ND LT LD Hs H Hd. unfold cleanRange in H. rewrite NG, NZ in H.
  pose proof (lastConst_le dims) as HLe. destruct (lastConstDim dims) as [|L1] eqn:EL; [congruence|].
  destruct (varLoop E fuel indexTy dims (subs r) (S L1) (Nat.min L1 (length (subs r))) 0 0 0 [] true) as [m| |] eqn:Ev; cbn [bind] in H; try discriminate.
  destruct m as [[[[Sub X] New] ok]|]; [|injection H as <-; congruence].
  assert (H' : X = 0%nat -> Ok (mkRange (New ++ skipn Sub (subs r)) (types r) (isElement r) false false true, ok) = Ok (r', true)).
  { intros ->. cbn [finishSubs] in H. exact H. }
  assert (O : ok = true).
  { destruct (finishSubs indexTy r Sub X New); [injection H as _ ->; reflexivity|]. injection H as <-. congruence. }
  apply varLoop_ok in Ev; [|exact O]. destruct Ev as (_ & add & EN & La & _ & Hc & Hx & Hsum). cbn [app] in EN. subst New.
  assert (X0 : X = 0%nat) by lia. specialize (H' X0). subst X. injection H' as <- _.
  clear H Hd. cbn [subs]. set (n := length (subs r)) in *. set (k := Nat.min L1 n) in *.
  assert (Sk : Sub = k) by lia. subst Sub. specialize (Hsum e). rewrite Nat.sub_0_r, sum_nth in Hsum by lia.
  unfold offsetOfElement. rewrite map_app. rewrite map_length.
  replace (length dims) with (k + (length dims - k))%nat by lia. rewrite seq_app, map_app. cbn [plus].
  rewrite dot_app by (rewrite !map_length, seq_length; exact La).
  rewrite (dot_strides _ es (S L1)) by (rewrite ?map_length; lia).
  unfold offsetOfTypes. rewrite <- (firstn_skipn k (subs r)) at 2. rewrite <- (firstn_skipn k (types r)).
  rewrite !map_app. rewrite dot_app by (rewrite !map_length, !firstn_length; lia).
  set (U := prod (skipn (S L1) (map (ev I e) dims)) * es) in *.
  apply cong_add.
  - rewrite (dot_const (map (ev I e) (firstn k (subs r))) _ U).
    + apply cong_mul_r. exact Hsum.
    + rewrite !map_length, !firstn_length. lia.
    + intros x Hx'. rewrite <- firstn_map in Hx'. apply (In_nth _ _ 0) in Hx'. destruct Hx' as (i & Hi & <-).
      rewrite firstn_length, map_length in Hi.
      assert (Q : nth i (firstn k (map sizeT (types r))) 0 = nth i (map sizeT (types r)) 0).
      { rewrite <- (firstn_skipn k (map sizeT (types r))) at 2. rewrite app_nth1; [reflexivity|]. rewrite firstn_length, map_length. lia. }
      rewrite Q, Hs by lia. destruct (Nat.ltb_spec i (S L1)); [reflexivity|lia].
  - apply cong_eq. apply dot_ext.
    + rewrite !map_length, skipn_length, seq_length. fold n. lia.
    + rewrite !map_length, !skipn_length. lia.
    + intros i Hi. rewrite map_length, skipn_length in Hi. fold n in Hi.
      rewrite <- skipn_map. 
      assert (Q : nth i (skipn k (map sizeT (types r))) 0 = nth (k + i) (map sizeT (types r)) 0).
      { rewrite <- (firstn_skipn k (map sizeT (types r))) at 2. rewrite app_nth2; [|rewrite firstn_length, map_length; lia].
        rewrite firstn_length, map_length. f_equal. lia. }
      rewrite Q, Hs by lia.
      rewrite (nth_indep _ 0 (stride (map (ev I e) dims) es 0)) by (rewrite map_length, seq_length; lia).
      rewrite map_nth, seq_nth by lia.
      destruct (Nat.ltb_spec (k + i) (S L1)) as [Hl|Hl]; [|reflexivity].
      assert (k + i = L1)%nat by lia. rewrite H. unfold stride. reflexivity.
Qed.

(** all sizes are variable and some subscripts are missing *)
Lemma clean_variable dims base r r' es : forall e,
  lastConstDim dims = length dims -> noGEP r = false -> needExtraZero r = true -> isDelinearized r = false ->
  length (types r) = length (subs r) -> (length dims - 1 <= length (subs r) <= length dims)%nat ->
  (forall t, In t (types r) -> exists i, t = TOther i es) ->
  cleanRange E fuel indexTy dims base r = Ok (r', true) -> isDelinearized r' = true ->
  cong M (offsetOfElement (map (ev I e) (subs r')) (map (ev I e) dims) es)
         (offsetOfTypes (map (ev I e) (subs r)) (types r)).
Proof.
  intros e HL NG NZ ND LT LD Hs H Hd. unfold cleanRange in H. rewrite NG, NZ in H.
  destruct (lastConstDim dims) as [|L1] eqn:EL.
  { assert (length (subs r) = 0)%nat by lia. destruct (subs r) eqn:ES; [|discriminate].
    assert (ED : dims = []) by (destruct dims; [reflexivity|discriminate]). subst dims. cbn in H. injection H as <-.
    cbn. apply cong_refl. }
  rewrite <- HL in LD, H.
  destruct (varLoop E fuel indexTy dims (subs r) (S L1) (Nat.min L1 (length (subs r))) 0 0 (S L1 - length (subs r)) [] true) as [m| |] eqn:Ev; cbn [bind] in H; try discriminate.
  destruct m as [[[[Sub X] New] ok]|]; [|injection H as <-; congruence].
  assert (HT : forall j d, (j < length (types r))%nat -> exists i, nth j (types r) d = TOther i es).
  { intros j d Hj. apply Hs. apply nth_In. exact Hj. }
  assert (F : exists tail, finishSubs indexTy r Sub X New = Some (New ++ tail) /\ r' = mkRange (New ++ tail) (types r) (isElement r) true false true /\
     ok = true /\ (X = 0%nat /\ tail = skipn Sub (subs r) \/ (length (subs r) <= Sub)%nat /\ tail = repeat (zero indexTy) X)).
  { unfold finishSubs in *. destruct X as [|X].
    { injection H as <- ->. eexists. split; [reflexivity|]. auto. }
    destruct (Nat.ltb_spec Sub (length (subs r))) as [Hl|Hl].
    - destruct (HT Sub (TOther 0 0)) as [i Ei]; [lia|]. rewrite Ei in H. cbn [addExtraConstZero] in H.
      destruct Sub as [|J]; [injection H as <-; congruence|].
      destruct (HT J (TOther 0 0)) as [i' Ei']; [lia|]. rewrite Ei' in H. cbn [addExtraConstZero] in H.
      injection H as <-; congruence.
    - injection H as <- ->. eexists. split; [reflexivity|]. auto. }
  destruct F as (tail & _ & -> & O & F). clear H Hd.
  apply varLoop_ok in Ev; [|exact O]. destruct Ev as (_ & add & EN & La & _ & Hc & Hx & Hsum). cbn [app] in EN. subst New.
  cbn [subs]. set (n := length (subs r)) in *. replace (Nat.min L1 n) with L1 in * by lia.
  specialize (Hsum e). rewrite Nat.sub_0_r in *.
  assert (SumT : offsetOfTypes (map (ev I e) (subs r)) (types r) = sum (map (ev I e) (subs r)) * es).
  { unfold offsetOfTypes. apply dot_const; [rewrite !map_length; fold n; lia|]. intros x Hx'. apply in_map_iff in Hx'.
    destruct Hx' as (t & <- & Ht). destruct (Hs t Ht) as [i ->]. reflexivity. }
  rewrite SumT. unfold offsetOfElement. rewrite map_app, map_length. rewrite <- HL.
  replace (seq 0 (S L1)) with (seq 0 L1 ++ [L1]) by (rewrite seq_S; reflexivity). rewrite map_app.
  rewrite dot_app by (rewrite !map_length, seq_length; exact La).
  rewrite (dot_strides _ es (S L1)) by (rewrite ?map_length; lia).
  assert (U1 : prod (skipn (S L1) (map (ev I e) dims)) = 1).
  { rewrite skipn_all2 by (rewrite map_length; lia). reflexivity. }
  rewrite U1, Z.mul_1_l.
  assert (St : stride (map (ev I e) dims) es L1 = es) by (unfold stride; rewrite U1; ring).
  cbn [map]. rewrite St.
  destruct F as [[-> ->]|[Hn ->]].
  - (* the last subscript *)
    assert (Sub = n - 1)%nat by lia.
    assert (Hsub : (Sub < n)%nat). { destruct n; [|lia]. exfalso. lia. }
    rewrite sum_nth in Hsum by lia.
    rewrite (skipn_cons_nth CNC (subs r) Sub Hsub). rewrite skipn_all2 by (fold n; lia). cbn [map dot].
    assert (Q : subs r = firstn Sub (subs r) ++ [nth Sub (subs r) CNC]).
    { rewrite <- (firstn_skipn Sub (subs r)) at 1. rewrite (skipn_cons_nth CNC (subs r) Sub Hsub).
      rewrite (skipn_all2 (n := S Sub)) by (fold n; lia). reflexivity. }
    assert (Q' : sum (map (ev I e) (subs r)) = sum (map (ev I e) (firstn Sub (subs r))) + V e (nth Sub (subs r) CNC)).
    { rewrite Q at 1. rewrite map_app, sum_app. cbn [map]. rewrite sum1. reflexivity. }
    rewrite Q', Z.mul_add_distr_r. apply cong_add; [apply cong_mul_r; exact Hsum|].
    apply cong_eq. ring.
  - rewrite ev_zeros, dot_zeros, Z.add_0_r. apply cong_mul_r. eapply cong_trans; [exact Hsum|].
    assert (Sub = n \/ Sub = S n) as [->| ->] by lia.
    + rewrite sum_nth by lia. unfold n. rewrite firstn_all. apply cong_refl.
    + exfalso. lia.
Qed.

(** ** sizes of dimensions *)
Variable order : list sc -> list sc.
Hypothesis Hord : forall l x, In x l -> In x (order l).
Variable inv : sc -> bool.
Variable hasLoops : bool.
Variable conv : sc -> sc.
Hypothesis Hconv : forall e s, cong M (V e (conv s)) (V e s).
Definition simple (s : sc) : Prop :=
  affine s /\ forall l L, computeSCEVAddRec E s = (Rec l L, true) -> length l = 2%nat.
Definition complete (r : range) : Prop := isElement r = true /\ needExtraZero r = false.

Lemma filter_divides e f l : exists q, prod (map (ev I e) l) = prod (map (ev I e) (filter f l)) * q.
Proof.
  induction l as [|x l [q IH]]; [exists 1; reflexivity|]. cbn [filter map].
  assert (P : prod (V e x :: map (ev I e) l) = V e x * prod (map (ev I e) l)) by reflexivity. rewrite P, IH.
  destruct (f x).
  - exists q. cbn [map]. unfold prod. cbn [fold_right]. ring.
  - exists (V e x * q). ring.
Qed.
Lemma invariant_divides G F : invariantFactors E inv hasLoops G = Some F ->
  forall e, exists q, cong M (V e G) (V e F * q).
Proof.
  unfold invariantFactors. destruct hasLoops; [|intros [= ->] e; exists 1; apply cong_eq; ring].
  set (l := match G with Mul l => l | _ => [G] end).
  assert (HG : forall e, V e G = prod (map (ev I e) l)).
  { intros e. subst l. destruct G; cbn [map]; try (unfold prod; cbn [fold_right]; ring). reflexivity. }
  intros H e. rewrite HG. destruct (filter_divides e inv l) as [q Hq]. exists q. rewrite Hq.
  apply cong_mul_r. apply cong_sym. destruct (filter inv l) as [|x l'] eqn:El; [discriminate|].
  injection H as <-. apply (soundMul _ _ _ SD).
Qed.
Lemma in_expressions rs D r k : In r rs -> complete r -> (k < D)%nat -> (k < length (subs r))%nat ->
  In (nth k (subs r) CNC) (expressions rs D).
Proof.
  intros Hr [C1 C2] Hk Hl. apply in_flat_map. exists r. split; [exact Hr|]. rewrite C1, C2. cbn [negb orb].
  rewrite <- in_rev. 
  assert (Q : nth k (firstn D (subs r)) CNC = nth k (subs r) CNC).
  { rewrite <- (firstn_skipn D (subs r)) at 2. rewrite app_nth1; [reflexivity|]. rewrite firstn_length. lia. }
  rewrite <- Q. apply nth_In. rewrite firstn_length. lia.
Qed.
Lemma computeSize_ok rs D Prev size : 
  Forall simple (expressions rs D) ->
  computeSize E fuel order inv hasLoops rs D Prev = Ok (Some size, true) ->
  forall s, In s (expressions rs D) -> forall e, exists q, cong M (V e s) (V e size * V e Prev * q).
Proof.
  intros A H s Hs e. unfold computeSize in H. destruct (expressions rs D) as [|s0 l] eqn:EE; [destruct Hs|].
  rewrite <- EE in *. replace (match expressions rs D with [] => Ok (None, true) | _ => _ end)
    with (bind (findGCD E order fuel true (expressions rs D)) (fun g =>
    let '(G, ok) := g in
    if isCNC G then Ok (None, true)
    else
      match invariantFactors E inv hasLoops G with
      | None => Ok (None, true)
      | Some F => bind (divide E fuel true F Prev) (fun Div =>
                  Ok (Some (rQ Div), ok && rOk Div && isZero (rR Div)))
      end)) in H by (rewrite EE; reflexivity).
  destruct (findGCD E order fuel true (expressions rs D)) as [[G ok]| |] eqn:EG; cbn [bind] in H; try discriminate.
  destruct (isCNC G) eqn:CG; [discriminate|]. destruct (invariantFactors E inv hasLoops G) as [F|] eqn:EF; [|discriminate].
  destruct (divide E fuel true F Prev) as [d| |] eqn:Ed; cbn [bind] in H; try discriminate.
  injection H as <- H. apply andb_true_iff in H. destruct H as [H Hz]. apply andb_true_iff in H. destruct H as [-> Hok].
  assert (NG : G <> CNC) by (intros ->; discriminate).
  destruct (findGCD_divs I M E SD order fuel _ G Hord A EG NG s Hs e) as [q1 H1].
  destruct (invariant_divides G F EF e) as [q2 H2].
  pose proof (divide_good I M E SD fuel _ _ _ Ed Hok e) as H3. rewrite (isZero_ev I e _ Hz), Z.add_0_r in H3.
  exists (q2 * q1). eapply cong_trans; [exact H1|]. eapply cong_trans; [apply cong_mul_r; exact H2|].
  eapply cong_trans; [apply cong_mul_r; apply cong_mul_r; exact H3|]. apply cong_eq. ring.
Qed.

Lemma sizesLoop_ok rs dims : (forall r s, In r rs -> complete r -> In s (subs r) -> simple s) ->
  forall D Prev acc ok sizes,
  sizesLoop E fuel order inv hasLoops conv rs dims D Prev acc ok = Ok (Some sizes, true) ->
  ok = true /\ exists new, sizes = new ++ acc /\ length new = D /\
    forall J, (1 <= J <= D)%nat -> nth J dims None = None ->
    forall r k, In r rs -> complete r -> (k < J)%nat -> (k < length (subs r))%nat ->
    forall e, exists q, cong M (V e (nth k (subs r) CNC)) (prod (map (ev I e) (skipn (J - 1) new)) * V e Prev * q).
Proof.
  intros A. induction D as [|D IH]; intros Prev acc ok sizes; cbn [sizesLoop].
  { intros [= <- ->]. split; [reflexivity|]. exists []. split; [reflexivity|]. split; [reflexivity|]. intros J HJ. lia. }
  assert (EX : Forall simple (expressions rs (S D))).
  { apply Forall_forall. intros s Hs. apply in_flat_map in Hs. destruct Hs as (r & Hr & Hs).
    destruct (isElement r) eqn:C1; [|destruct Hs]. destruct (needExtraZero r) eqn:C2; [destruct Hs|]. cbn [negb orb] in Hs.
    rewrite <- in_rev in Hs. apply (A r s Hr); [split; assumption|]. rewrite <- (firstn_skipn (S D) (subs r)).
    apply in_or_app. left. exact Hs. }
  assert (STEP : forall size ok1, 
    (nth (S D) dims None = None -> ok1 = true -> forall s, In s (expressions rs (S D)) -> forall e, exists q, cong M (V e s) (V e size * V e Prev * q)) ->
    sizesLoop E fuel order inv hasLoops conv rs dims D (seMul E [Prev; conv size]) (size :: acc) ok1 = Ok (Some sizes, true) ->
    ok1 = true /\ exists new, sizes = new ++ acc /\ length new = S D /\
    forall J, (1 <= J <= S D)%nat -> nth J dims None = None ->
    forall r k, In r rs -> complete r -> (k < J)%nat -> (k < length (subs r))%nat ->
    forall e, exists q, cong M (V e (nth k (subs r) CNC)) (prod (map (ev I e) (skipn (J - 1) new)) * V e Prev * q)).
  { intros size ok1 Hsz H. destruct (IH _ _ _ _ H) as (O & new & -> & Ln & HJ). split; [exact O|].
    exists (new ++ [size]). rewrite <- app_assoc. split; [reflexivity|]. rewrite app_length. cbn [length]. split; [lia|].
    intros J HJ1 Hn r k Hr Cr Hk Hl e. destruct (Nat.eq_dec J (S D)) as [->|NJ].
    - destruct (Hsz Hn O _ (in_expressions rs (S D) r k Hr Cr Hk Hl) e) as [q Hq]. exists q.
      eapply cong_trans; [exact Hq|]. rewrite skipn_app. rewrite skipn_all2 by lia.
      replace (S D - 1 - length new)%nat with 0%nat by lia. cbn [skipn app map]. unfold prod. cbn [fold_right]. apply cong_eq. ring.
    - destruct (HJ J ltac:(lia) Hn r k Hr Cr Hk Hl e) as [q Hq]. exists q. eapply cong_trans; [exact Hq|].
      rewrite skipn_app. replace (J - 1 - length new)%nat with 0%nat by lia. cbn [skipn]. rewrite map_app, prod_app. cbn [map].
      apply cong_mul_r.
      eapply cong_trans; [apply cong_mul_l; apply (soundMul _ _ _ SD)|]. cbn [map]. unfold prod at 2. cbn [fold_right].
      rewrite <- Z.mul_assoc. apply cong_mul_l.
      eapply cong_trans; [apply cong_mul_l; apply cong_mul_r; apply Hconv|]. unfold prod. cbn [fold_right]. apply cong_eq. ring. }
  destruct (nth (S D) dims None) as [sz|] eqn:En.
  - destruct (isZero sz); [discriminate|]. apply STEP. intros ?. discriminate.
  - destruct (computeSize E fuel order inv hasLoops rs (S D) Prev) as [[[sz|] ok']| |] eqn:Ec; cbn [bind]; try discriminate.
    intros H. apply STEP in H.
    + destruct H as [[O O']%andb_true_iff H]. split; [exact O|exact H].
    + intros _ [_ ->]%andb_true_iff. exact (computeSize_ok rs (S D) Prev sz EX Ec).
Qed.
End P.
