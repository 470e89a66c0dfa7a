(** C53: A reversed loop executes the same iterations in the reverse order.

    Sources are rewritten if a user asks for it: the loop must execute its body for exactly
    the same values of the induction variable, from the last one to the first one.  So, if
    iterations do not depend on each other the result of the loop does not change. *)
From Coq Require Import ZArith List Bool Arith Lia.
From Verif Require Import ReversalModel ReversalSpec ReversalProof.
Import ListNotations.
Local Open Scope Z_scope.

(** *** Main theorem.  Missing (all of this is refuted below): unsigned variables, loops
    without iterations and with a step, exclusive bounds with an increment of another
    direction, shifts and weaker operations in texts of bounds, large values. *)
Theorem C53_reversed_partial : forall w vars c Start Step End l vi vb s fuel old old' vs f,
  3 <= w ->
  (** bounds and the step do not depend on the variable, their values are small *)
  noInd (cBound c) -> noInd (cInit c) -> (match stepText (cInc c) with Some e => noInd e | None => True end) ->
  eval (signedN w) vars 0 (cInit c) = Some vi -> eval (signedN w) vars 0 (cBound c) = Some vb ->
  stepOf (signedN w) vars (cInc c) = Some s ->
  Z.abs vi <= 2 ^ (w - 3) -> Z.abs vb <= 2 ^ (w - 3) -> Z.abs s <= 2 ^ (w - 3) ->
  tight (cInit c) -> tight (cBound c) -> isComparison (cOp c) ->
  (** the step agrees with the condition *)
  (if upward c then 0 < s else s < 0) ->
  (strictCond (cOp c) = true -> additive (cInc c) = upward c) ->
  (** the loop terminates *)
  run fuel (signedN w) vars old (toFor c) = Done vs f ->
  (** known constants are right *)
  (match Start with Some z => z = vi | None => True end) ->
  (match Step with Some z => z = s | None => True end) ->
  (match End with Some z => z = f | None => True end) ->
  (vs <> [] \/ stepText (cInc c) = None \/ (Step <> None /\ End <> None)) ->
  transformLoop c Start Step End = Some l ->
  exists fuel' f', run fuel' (signedN w) vars old' l = Done (rev vs) f'.
Proof.
  intros w vars c Start Step End l vi vb s fuel old old' vs f Hw Nb Ni Ns Ei Eb Es Ai Ab As Ti Tb Cmp Dir Ex R KS Kst KE Hn Tr.
  change (match incrExpr (cInc c) with Some e => noInd e | None => True end) in Ns.
  change (strictCond (cOp c) = true -> incrSub (cInc c) = upward c) in Ex.
  change (vs <> [] \/ incrExpr (cInc c) = None \/ (Step <> None /\ End <> None)) in Hn.
  unfold run in R. rewrite (noInd_eval _ _ old 0 (cInit c) Ni) in R.
  replace (eval (signedN w) vars 0 (fInit (toFor c))) with (Some vi) in R by (symmetry; exact Ei).
  unfold run in R. cbn [toFor fInit] in R. rewrite Ei in R.
  pose proof (source_cond w vars c vb Nb Eb Cmp) as SC.
  pose proof (source_incr w vars c Ns s Es ltac:(unfold small, P; lia)) as SI.
  destruct (iterate_done _ _ _ _ _ (fit_eq w) SC SI _ _ _ _ R) as (n & -> & -> & He & Hin).
  assert (Hn' : (0 < n)%nat \/ incrExpr (cInc c) = None \/ (Step <> None /\ End <> None)).
  { destruct Hn as [Hn|Hn]; [left|right; exact Hn]. destruct n; [cbn in Hn; congruence|lia]. }
  assert (A : forall z, Z.abs z <= 2 ^ (w - 3) -> small w z) by (intros z Hz; unfold small, P; lia).
  destruct (reversed_run w Hw vars c vi vb Nb Ni Ns Ei Eb s Es (A _ Ai) (A _ Ab) (A _ As) Ti Tb Cmp Start Step End n KS Kst KE l Tr Dir He Hin Ex Hn' old') as [f' Hf].
  exists (S n), f'. exact Hf.
Qed.
Print Assumptions C53_reversed_partial.
(** for (i = a; i < b; i += 3): 2, 5, 8 becomes for (i = a+(b - 1 - (a))/(3)*(3); i >= a; i -= 3) *)
Definition exLoop : canonLoop := mkCanon (EVar 0) OLt false (EVar 1) (IAssignOp false (ENum 3)).
Definition exVars (v : nat) : Z := match v with 0%nat => 2 | _ => 10 end.
Example C53_reversed_ex :
  run 9 (signedN 32) exVars 0 (toFor exLoop) = Done [2; 5; 8] 11 /\
  exists l, transformLoop exLoop None None None = Some l /\
  run 9 (signedN 32) exVars 0 l = Done [8; 5; 2] (-1) /\
  eval (signedN 32) exVars 0 (EVar 0) = Some 2 /\ stepOf (signedN 32) exVars (cInc exLoop) = Some 3 /\
  tight (cInit exLoop) /\ upward exLoop = true /\ additive (cInc exLoop) = true.
Proof. split; [reflexivity|]. eexists. split; [reflexivity|]. repeat split; vm_compute; reflexivity. Qed.
(** for (i = 9; 0 < i; i = i - 2), all constants are known: for (i = 1; 9 >= i; i = i - -(2)) *)
Example C53_reversed_down_ex :
  let c := mkCanon (ENum 9) OLt true (ENum 0) (ISetSub (ENum 2)) in
  run 9 (signedN 32) exVars 0 (toFor c) = Done [9; 7; 5; 3; 1] (-1) /\
  transformLoop c (Some 9) (Some (-2)) (Some (-1)) = Some (mkFor (ENum 1) (EBin OGe (ENum 9) EInd) (ISetSub (ENeg (ENum 2)))) /\
  run 9 (signedN 32) exVars 0 (mkFor (ENum 1) (EBin OGe (ENum 9) EInd) (ISetSub (ENeg (ENum 2)))) = Done [1; 3; 5; 7; 9] 11.
Proof. repeat split; vm_compute; reflexivity. Qed.

(** *** The reverse order gives the same result if iterations are independent. *)
Theorem C53_same_result : forall S (body : Z -> S -> S) vs,
  (forall i j s, In i vs -> In j vs -> i <> j -> body i (body j s) = body j (body i s)) ->
  forall s, execute body (rev vs) s = execute body vs s.
Proof.
  intros S body vs. induction vs as [|i vs IH]; intros H s; [reflexivity|]. cbn [rev].
  unfold execute in *. rewrite fold_left_app. cbn [fold_left].
  rewrite IH by (intros; apply H; try (right; assumption); assumption).
  assert (G : forall vs s, (forall j, In j vs -> forall s, body i (body j s) = body j (body i s)) ->
    fold_left (fun s i => body i s) vs (body i s) = body i (fold_left (fun s i => body i s) vs s)).
  { clear. induction vs as [|j vs IH]; intros s H; [reflexivity|]. cbn [fold_left].
    rewrite <- IH by (intros; apply H; right; assumption). rewrite H by (left; reflexivity). reflexivity. }
  symmetry. apply G. intros j Hj s0. destruct (Z.eq_dec i j) as [->|N]; [reflexivity|].
  apply H; [left; reflexivity|right; exact Hj|exact N].
Qed.
Print Assumptions C53_same_result.
Example C53_same_result_ex :
  let body i (s : Z * Z) := if Z.even i then (fst s + i, snd s) else (fst s, snd s + 1) in
  execute body (rev [8; 5; 2]) (0, 0) = (10, 1) /\ execute body [8; 5; 2] (0, 0) = (10, 1).
Proof. split; reflexivity. Qed.

(** *** Syntactically canonical loops: the condition bounds the variable in the direction
    of the step, if the step is known. *)
Theorem C53_canonical : forall fit vars constOf,
  (forall e z, constOf e = Some z -> eval fit vars 0 e = Some z) ->
  forall c s, coherent constOf c = true ->
  (match stepText (cInc c) with Some e => constOf e <> None | None => True end) ->
  stepOf fit vars (cInc c) = Some s -> if upward c then 0 < s else s < 0.
Proof.
  intros fit vars constOf Hc c s H K Hs.
  assert (D : forall b, coherentDir constOf c b = true -> b = upward c).
  { intros b. unfold coherentDir, upward. destruct (match constOf (cInit c) with Some _ => _ | None => _ end); [discriminate|].
    destruct b, (cOp c), (cRevCond c); cbn; congruence. }
  unfold coherent in H. destruct (cInc c) as [up|sub e|e|e|e]; cbn [stepText stepOf] in *.
  - apply D in H. rewrite <- H. injection Hs as <-. destruct up; lia.
  - destruct (constOf e) as [z|] eqn:E; [|congruence]. rewrite (Hc e z E) in Hs. injection Hs as <-.
    destruct (Z.eqb_spec z 0); [discriminate|]. apply D in H. rewrite <- H.
    destruct (Z.ltb_spec 0 z), (Z.ltb_spec z 0), sub; cbn; lia.
  - destruct (constOf e) as [z|] eqn:E; [|congruence]. rewrite (Hc e z E) in Hs. injection Hs as <-.
    destruct (Z.eqb_spec z 0); [discriminate|]. apply D in H. rewrite <- H.
    destruct (Z.ltb_spec 0 z), (Z.ltb_spec z 0); cbn; lia.
  - destruct (constOf e) as [z|] eqn:E; [|congruence]. rewrite (Hc e z E) in Hs. injection Hs as <-.
    destruct (Z.eqb_spec z 0); [discriminate|]. apply D in H. rewrite <- H.
    destruct (Z.ltb_spec 0 z), (Z.ltb_spec z 0); cbn; lia.
  - destruct (constOf e) as [z|] eqn:E; [|congruence]. rewrite (Hc e z E) in Hs. injection Hs as <-.
    destruct (Z.eqb_spec z 0); [discriminate|]. apply D in H. rewrite <- H.
    destruct (Z.ltb_spec 0 z), (Z.ltb_spec z 0); cbn; lia.
Qed.
Print Assumptions C53_canonical.
Definition numOf (e : expr) : option Z := match e with ENum z => if Z.abs z <? 100 then Some z else None | _ => None end.
Example C53_canonical_ex :
  (forall e z, numOf e = Some z -> eval (signedN 32) exVars 0 e = Some z) /\
  coherent numOf exLoop = true /\ coherent numOf (mkCanon (EVar 0) OGt false (EVar 1) (IAssignOp false (ENum 3))) = false.
Proof.
  split; [|split; reflexivity]. intros [z| | | | |] y H; try discriminate. cbn in *.
  destruct (Z.ltb_spec (Z.abs z) 100); [|discriminate]. injection H as ->. unfold signedN.
  change (2 ^ (32 - 1)) with 2147483648.
  destruct (Z.leb_spec (- (2147483648)) y); [|lia]. destruct (Z.ltb_spec y 2147483648); [reflexivity|lia].
Qed.

(** *** Requests for nested loops: if numbers of loops do not decrease exactly the
    requested loops are reversed. *)
Theorem C53_requests_partial : forall requests, (forall i j, (i <= j < length requests)%nat -> (nth i requests 0 <= nth j requests 0)%nat) ->
  forall k, nth k (toTransform requests) false = true <-> In k requests.
Proof.
  assert (G : forall rs l, (l = [] \/ exists l', l = l' ++ [true] /\ forall r, In r rs -> (length l' <= r)%nat) ->
    (forall i j, (i <= j < length rs)%nat -> (nth i rs 0 <= nth j rs 0)%nat) ->
    forall k, nth k (fold_left mark rs l) false = true <-> nth k l false = true \/ In k rs).
  { induction rs as [|r rs IH]; intros l Hl Hs k; cbn [fold_left]; [cbn [In]; tauto|].
    assert (Hr : forall x, In x rs -> (r <= x)%nat).
    { intros x Hx. apply (In_nth _ _ 0%nat) in Hx. destruct Hx as (j & Hj & <-). exact (Hs 0%nat (S j) ltac:(cbn [length]; lia)). }
    assert (M : forall k, nth k (mark l r) false = true <-> nth k l false = true \/ r = k).
    { intros m. unfold mark, resize. destruct Hl as [->|(l' & -> & Hl)].
      - rewrite firstn_nil. cbn [app length]. rewrite Nat.sub_0_r.
        assert (N0 : nth m (@nil bool) false = false) by (destruct m; reflexivity). rewrite N0.
        destruct (Nat.lt_trichotomy m r) as [L|[->|L]].
        + rewrite app_nth1 by (rewrite repeat_length; exact L). rewrite nth_repeat. split; [discriminate|intros [H|H]; [discriminate|lia]].
        + rewrite app_nth2 by (rewrite repeat_length; lia). rewrite repeat_length, Nat.sub_diag. cbn. tauto.
        + rewrite nth_overflow by (rewrite app_length, repeat_length; cbn; lia). split; [discriminate|intros [H|H]; [discriminate|lia]].
      - specialize (Hl r (or_introl eq_refl)). set (p := length l') in *. rewrite app_length. cbn [length]. fold p.
        destruct (Nat.eq_dec r p) as [->|Np].
        + replace (p - (p + 1))%nat with 0%nat by lia. cbn [repeat]. rewrite app_nil_r.
          rewrite firstn_app. unfold p. rewrite firstn_all, Nat.sub_diag. cbn [firstn]. rewrite app_nil_r.
          split; [tauto|]. intros [H|<-]; [exact H|]. rewrite app_nth2, Nat.sub_diag by lia. reflexivity.
        + rewrite firstn_all2 by (rewrite app_length; cbn; lia).
          assert (LL : length ((l' ++ [true]) ++ repeat false (r - (p + 1))) = r) by (rewrite !app_length, repeat_length; cbn; lia).
          destruct (Nat.lt_trichotomy m r) as [L|[->|L]].
          * rewrite app_nth1 by lia.
            destruct (Nat.lt_ge_cases m (length (l' ++ [true]))) as [L1|L1].
            { rewrite app_nth1 by exact L1. split; [tauto|intros [H|H]; [exact H|lia]]. }
            rewrite app_nth2 by exact L1. rewrite nth_repeat. rewrite (nth_overflow (l' ++ [true])) by exact L1.
            split; [discriminate|intros [H|H]; [discriminate|lia]].
          * rewrite app_nth2 by lia. rewrite LL, Nat.sub_diag. cbn. tauto.
          * rewrite nth_overflow by (rewrite app_length, LL; cbn; lia).
            rewrite (nth_overflow (l' ++ [true])) by (rewrite app_length; cbn; lia). split; [discriminate|intros [H|H]; [discriminate|lia]]. }
    rewrite IH.
    - rewrite M. cbn [In]. tauto.
    - right. unfold mark, resize. destruct Hl as [->|(l' & -> & Hl)].
      + eexists. split; [reflexivity|]. intros x Hx. rewrite firstn_nil. cbn [app length]. rewrite repeat_length. pose proof (Hr x Hx). lia.
      + eexists. split; [reflexivity|]. intros x Hx. rewrite app_length, firstn_length, repeat_length, !app_length. cbn [length].
        pose proof (Hr x Hx). pose proof (Hl r (or_introl eq_refl)). lia.
    - intros i j Hij. exact (Hs (S i) (S j) ltac:(cbn [length]; lia)). }
  intros rs Hs k. unfold toTransform. rewrite (G rs [] (or_introl eq_refl) Hs).
  destruct k; cbn [nth]; split; try tauto; intros [H|H]; (discriminate || assumption).
Qed.
Print Assumptions C53_requests_partial.
Example C53_requests_ex : toTransform [0; 2; 2]%nat = [true; false; true].
Proof. reflexivity. Qed.

(** *** Refutations *)
(** A request for an outer loop after a request for an inner one cancels the latter. *)
Theorem C53_requests_refuted : exists requests k, In k requests /\ nth k (toTransform requests) false = false.
Proof. exists [1; 0]%nat, 1%nat. split; [left; reflexivity|reflexivity]. Qed.
Print Assumptions C53_requests_refuted.
(** for (unsigned i = 0; i < n; ++i) becomes for (unsigned i = n-1; i >= 0; --i), which never
    ends. *)
Theorem C53_unsigned_refuted : exists c l,
  coherent numOf c = true /\ transformLoop c None None None = Some l /\
  run 9 (unsignedN 32) (fun _ => 3) 0 (toFor c) = Done [0; 1; 2] 3 /\
  forall fuel, run fuel (unsignedN 32) (fun _ => 3) 0 l = NotYet.
Proof.
  exists (mkCanon (ENum 0) OLt false (EVar 0) (IUnary true)).
  exists (mkFor (EBin OSub (EVar 0) (ENum 1)) (EBin OGe EInd (ENum 0)) (IUnary false)).
  split; [reflexivity|]. split; [reflexivity|]. split; [reflexivity|].
  intros fuel. set (l := mkFor _ _ _). change (run fuel (unsignedN 32) (fun _ => 3) 0 l) with (iterate fuel (unsignedN 32) (fun _ => 3) l 2).
  assert (H : 0 <= 2) by lia. revert H. generalize 2 as i. induction fuel as [|fuel IH]; intros i Hi; [reflexivity|].
  cbn [iterate]. unfold l at 1. cbn [fCond eval unsignedN]. rewrite Z.mod_0_l by (vm_compute; discriminate). cbn [evalOp].
  destruct (Z.leb_spec 0 i); [|lia]. change (b2z true =? 0) with false. cbv iota.
  unfold l at 1. cbn [fInc evalIncr unsignedN].
  rewrite IH; [reflexivity|]. apply Z.mod_pos_bound. reflexivity.
Qed.
Print Assumptions C53_unsigned_refuted.
(** for (int i = 0; i < n; i += 2) has no iterations for n = 0, the reversed loop has one. *)
Theorem C53_no_iterations_refuted : exists c l,
  coherent numOf c = true /\ transformLoop c None None None = Some l /\
  run 9 (signedN 32) (fun _ => 0) 0 (toFor c) = Done [] 0 /\
  run 9 (signedN 32) (fun _ => 0) 0 l = Done [0] (-2).
Proof.
  exists (mkCanon (ENum 0) OLt false (EVar 0) (IAssignOp false (ENum 2))). eexists.
  split; [reflexivity|]. split; [reflexivity|]. split; vm_compute; reflexivity.
Qed.
Print Assumptions C53_no_iterations_refuted.
(** for (int i = n; i > 0; i += -2) gets an additional iteration. *)
Theorem C53_negative_step_refuted : exists c l,
  coherent numOf c = true /\ transformLoop c None None None = Some l /\
  run 9 (signedN 32) (fun _ => 9) 0 (toFor c) = Done [9; 7; 5; 3; 1] (-1) /\
  run 9 (signedN 32) (fun _ => 9) 0 l = Done [-1; 1; 3; 5; 7; 9] 11.
Proof.
  exists (mkCanon (EVar 0) OGt false (ENum 0) (IAssignOp false (ENum (-2)))). eexists.
  split; [reflexivity|]. split; [reflexivity|]. split; vm_compute; reflexivity.
Qed.
Print Assumptions C53_negative_step_refuted.
(** for (int i = 0; i < n << 1; ++i) becomes for (int i = n << 1-1; ...): the bound is not
    put in parentheses. *)
Theorem C53_shift_refuted : exists c l,
  coherent numOf c = true /\ transformLoop c None None None = Some l /\
  run 9 (signedN 32) (fun _ => 2) 0 (toFor c) = Done [0; 1; 2; 3] 4 /\
  run 9 (signedN 32) (fun _ => 2) 0 l = Done [2; 1; 0] (-1).
Proof.
  exists (mkCanon (ENum 0) OLt false (EBin OShl (EVar 0) (ENum 1)) (IUnary true)). eexists.
  split; [reflexivity|]. split; [reflexivity|]. split; vm_compute; reflexivity.
Qed.
Print Assumptions C53_shift_refuted.
(** for (int i = a | 2; i <= 7; ++i) becomes for (int i = 7; i >= a | 2; --i), the new condition
    is (i >= a) | 2, which always holds. *)
Theorem C53_or_refuted : exists c l,
  coherent numOf c = true /\ transformLoop c None None None = Some l /\
  run 9 (signedN 32) (fun _ => 4) 0 (toFor c) = Done [6; 7] 8 /\
  (forall i, eval (signedN 32) (fun _ => 4) i (fCond l) = Some 2 \/ eval (signedN 32) (fun _ => 4) i (fCond l) = Some 3).
Proof.
  exists (mkCanon (EBin OOr (EVar 0) (ENum 2)) OLe false (ENum 7) (IUnary true)).
  exists (mkFor (ENum 7) (EBin OOr (EBin OGe EInd (EVar 0)) (ENum 2)) (IUnary false)).
  split; [reflexivity|]. split; [reflexivity|]. split; [vm_compute; reflexivity|].
  intros i. cbn [fCond eval].
  change (signedN 32 4) with (Some 4). change (signedN 32 2) with (Some 2). cbn [evalOp].
  destruct (4 <=? i); [right|left]; reflexivity.
Qed.
Print Assumptions C53_or_refuted.
(** The value of the variable after the loop is not the same. *)
Theorem C53_final_value_refuted : exists c l vs f f',
  coherent numOf c = true /\ transformLoop c (Some 0) (Some 1) (Some 3) = Some l /\
  run 9 (signedN 32) exVars 0 (toFor c) = Done vs f /\ run 9 (signedN 32) exVars 0 l = Done (rev vs) f' /\ f = 3 /\ f' = -1.
Proof.
  exists (mkCanon (ENum 0) OLt false (ENum 3) (IUnary true)). eexists. exists [0; 1; 2], 3, (-1).
  split; [reflexivity|]. split; [reflexivity|]. repeat split; vm_compute; reflexivity.
Qed.
Print Assumptions C53_final_value_refuted.
