(** Proofs about division of symbolic expressions. *)
From Coq Require Import ZArith List Bool Lia Ring.
From Verif Require Import SCEVModel SCEVSpec.
Import ListNotations.
Local Open Scope Z_scope.

(** ** induction and equality *)
Section Ind.
Variable P : sc -> Prop.
Hypothesis Hc : forall t z, P (Cst t z).
Hypothesis Hu : forall v, P (Unk v).
Hypothesis Ha : forall l, Forall P l -> P (Add l).
Hypothesis Hm : forall l, Forall P l -> P (Mul l).
Hypothesis Hr : forall l L, Forall P l -> P (Rec l L).
Hypothesis Hk : forall k t x, P x -> P (Cast k t x).
Hypothesis Ho : forall k l, Forall P l -> P (Opq k l).
Hypothesis Hn : P CNC.
Fixpoint sc_ind' (s : sc) : P s :=
  let fix all (l : list sc) : Forall P l :=
    match l with
    | [] => Forall_nil P
    | x :: l => Forall_cons x (sc_ind' x) (all l)
    end in
  match s with
  | Cst t z => Hc t z
  | Unk v => Hu v
  | Add l => Ha l (all l)
  | Mul l => Hm l (all l)
  | Rec l L => Hr l L (all l)
  | Cast k t x => Hk k t x (sc_ind' x)
  | Opq k l => Ho k l (all l)
  | CNC => Hn
  end.
End Ind.

Definition sceqs : list sc -> list sc -> bool :=
  fix eqs (l m : list sc) {struct l} : bool :=
    match l, m with
    | [], [] => true
    | x :: l, y :: m => sceq x y && eqs l m
    | _, _ => false
    end.
Lemma sceqs_eq l (H : Forall (fun x => forall y, sceq x y = true <-> x = y) l) :
  forall m, sceqs l m = true <-> l = m.
Proof.
  induction H as [|x l Hx _ IH]; intros [|y m]; cbn; try (split; [discriminate|discriminate]).
  - tauto.
  - rewrite andb_true_iff, Hx, IH. split; [intros [-> ->]; reflexivity|intros [= -> ->]; auto].
Qed.
Lemma castKindEq_eq a b : castKindEq a b = true <-> a = b.
Proof. destruct a, b; cbn; split; congruence. Qed.
Lemma sceq_eq a : forall b, sceq a b = true <-> a = b.
Proof.
  induction a as [t z|v|l IH|l IH|l L IH|k t x IH|k l IH|] using sc_ind';
    intros [t' z'|v'|l'|l'|l' L'|k' t' x'|k' l'|]; cbn [sceq]; try (split; discriminate).
  - rewrite andb_true_iff, Nat.eqb_eq, Z.eqb_eq. split; [intros [-> ->]; reflexivity|intros [= -> ->]; auto].
  - rewrite Nat.eqb_eq. split; congruence.
  - change (sceqs l l' = true <-> Add l = Add l'). rewrite (sceqs_eq l IH). split; congruence.
  - change (sceqs l l' = true <-> Mul l = Mul l'). rewrite (sceqs_eq l IH). split; congruence.
  - change (sceqs l l' && Nat.eqb L L' = true <-> Rec l L = Rec l' L').
    rewrite andb_true_iff, (sceqs_eq l IH), Nat.eqb_eq. split; [intros [-> ->]; reflexivity|intros [= -> ->]; auto].
  - rewrite !andb_true_iff, castKindEq_eq, Nat.eqb_eq, IH.
    split; [intros [[-> ->] ->]; reflexivity|intros [= -> -> ->]; auto].
  - change (Nat.eqb k k' && sceqs l l' = true <-> Opq k l = Opq k' l').
    rewrite andb_true_iff, (sceqs_eq l IH), Nat.eqb_eq. split; [intros [-> ->]; reflexivity|intros [= -> ->]; auto].
  - tauto.
Qed.
Lemma isZero_ev I e s : isZero s = true -> ev I e s = 0.
Proof. destruct s; cbn; try discriminate. intros H%Z.eqb_eq. exact H. Qed.
Lemma isOne_ev I e s : isOne s = true -> ev I e s = 1.
Proof. destruct s; cbn; try discriminate. intros H%Z.eqb_eq. exact H. Qed.

(** ** congruence *)
Lemma cong_refl M a : cong M a a.
Proof. exists 0. lia. Qed.
Lemma cong_eq M a b : a = b -> cong M a b.
Proof. intros ->. apply cong_refl. Qed.
Lemma cong_sym M a b : cong M a b -> cong M b a.
Proof. intros [k H]. exists (- k). lia. Qed.
Lemma cong_trans M a b c : cong M a b -> cong M b c -> cong M a c.
Proof. intros [k H] [j G]. exists (k + j). lia. Qed.
Lemma cong_add M a b c d : cong M a b -> cong M c d -> cong M (a + c) (b + d).
Proof. intros [k H] [j G]. exists (k + j). lia. Qed.
Lemma cong_sub M a b c d : cong M a b -> cong M c d -> cong M (a - c) (b - d).
Proof. intros [k H] [j G]. exists (k - j). lia. Qed.
Lemma cong_mul M a b c d : cong M a b -> cong M c d -> cong M (a * c) (b * d).
Proof.
  intros [k H] [j G]. exists (k * c + b * j).
  replace (a * c - b * d) with ((a - b) * c + b * (c - d)) by ring. rewrite H, G. ring.
Qed.
Lemma cong_mul_l M a c d : cong M c d -> cong M (a * c) (a * d).
Proof. intros. apply cong_mul; [apply cong_refl|assumption]. Qed.
Lemma cong_mul_r M a c d : cong M c d -> cong M (c * a) (d * a).
Proof. intros. apply cong_mul; [assumption|apply cong_refl]. Qed.

Lemma sum_app l m : sum (l ++ m) = sum l + sum m.
Proof. induction l as [|a l IH]; [reflexivity|]. cbn [app]. unfold sum in *. cbn [fold_right]. rewrite IH. ring. Qed.
Lemma prod_app l m : prod (l ++ m) = prod l * prod m.
Proof. induction l as [|a l IH]; [change (prod ([] ++ m)) with (prod m); change (prod []) with 1; ring|]. cbn [app]. unfold prod in *. cbn [fold_right]. rewrite IH. ring. Qed.
Lemma sum1 a : sum [a] = a.
Proof. cbn. ring. Qed.
Lemma prod1 a : prod [a] = a.
Proof. cbn. ring. Qed.
Lemma binom0 n : binom n 0 = 1.
Proof. destruct n; reflexivity. Qed.
Lemma binom1 n : binom n 1 = Z.of_nat n.
Proof. induction n as [|n IH]; [reflexivity|]. cbn [binom]. rewrite IH, binom0. lia. Qed.
Lemma chrec2 a b i : chrecFrom 0 [a; b] i = a + Z.of_nat i * b.
Proof. cbn [chrecFrom]. rewrite binom0, binom1. ring. Qed.

(** ** the identity *)
Section Id.
Variable I : interp.
Variable M : Z.
Variable E : SE.
Hypothesis SD : sound I M E.
Notation V e s := (ev I e s).

Definition good (N D : sc) (r : res) : Prop := forall e, cong M (V e N) (V e (rQ r) * V e D + V e (rR r)).

Lemma good_cannot N D : good N D (cannotDivide E N D).
Proof. intros e. cbn. apply cong_eq. ring. Qed.

Section Visit.
Variable div : sc -> out res.
Variable D : sc.
Hypothesis Hdiv : forall N r, div N = Ok r -> rOk r = true -> good N D r.

Lemma visitConstant_good t z r : visitConstant E D t z = Ok r -> good (Cst t z) D r.
Proof.
  unfold visitConstant. destruct D as [t' d| | | | | | |]; try (intros [= <-]; apply good_cannot).
  destruct (Z.eqb_spec d 0) as [|Hd]; [discriminate|]. intros [= <-] e. cbn. apply cong_eq.
  pose proof (Z.quot_rem' z d). lia.
Qed.
Lemma visitAddRec_good l L r : visitAddRecExpr E div true D l L = Ok r -> rOk r = true -> good (Rec l L) D r.
Proof.
  unfold visitAddRecExpr.
  destruct l as [|a [|b [|c l]]]; try (intros [= <-] _; apply good_cannot).
  destruct (div a) as [ra| |] eqn:Ea; cbn [bind]; try discriminate.
  destruct (div b) as [rb| |] eqn:Eb; cbn [bind]; try discriminate.
  destruct (_ || _); [intros [= <-] _; apply good_cannot|].
  destruct (_ && _); [intros [= <-] _; apply good_cannot|].
  intros [= <-]. cbn [rOk]. intros [Oa Ob]%andb_true_iff e. cbn [rQ rR].
  pose proof (Hdiv _ _ Ea Oa e) as Ha. pose proof (Hdiv _ _ Eb Ob e) as Hb.
  eapply cong_trans; [|apply cong_sym, cong_add; [apply cong_mul_r, (soundRec _ _ _ SD)|apply (soundRec _ _ _ SD)]].
  cbn [ev map]. rewrite !chrec2.
  eapply cong_trans; [apply cong_add; [exact Ha|apply cong_mul_l; exact Hb]|].
  apply cong_eq. ring.
Qed.

Lemma addLoop_good N l : forall done Qs Rs sTC ok r,
  (ok = true -> forall e, cong M (sum (map (ev I e) done)) (sum (map (ev I e) Qs) * V e D + sum (map (ev I e) Rs))) ->
  (forall e, V e N = sum (map (ev I e) (done ++ l))) ->
  addLoop E div true D N l Qs Rs sTC ok = Ok r -> rOk r = true -> good N D r.
Proof.
  induction l as [|x l IH]; intros done Qs Rs sTC ok r Hd HN.
  - cbn [addLoop]. rewrite app_nil_r in HN.
    destruct Qs as [|q Qs]; [discriminate|]. destruct Rs as [|r0 Rs]; [destruct Qs; discriminate|].
    assert (G : forall r, r = mkRes (seAdd E (q :: Qs)) (seAdd E (r0 :: Rs)) sTC ok -> rOk r = true -> good N D r).
    { intros r' -> O e. cbn [rQ rR rOk] in *. rewrite HN.
      eapply cong_trans; [exact (Hd O e)|]. apply cong_sym, cong_add; [apply cong_mul_r|]; apply (soundAdd _ _ _ SD). }
    destruct Qs as [|q' Qs]; [destruct Rs as [|r' Rs]|]; intros [= <-] O.
    + intros e. rewrite HN. cbn [rQ rR]. specialize (Hd O e). cbn [map] in Hd. rewrite !sum1 in Hd. exact Hd.
    + exact (G _ eq_refl O).
    + exact (G _ eq_refl O).
  - cbn [addLoop]. destruct (div x) as [rx| |] eqn:Ex; cbn [bind]; try discriminate.
    destruct (_ && true); [intros [= <-] _; apply good_cannot|].
    destruct (match Qs with [] => _ | _ => _ end); [intros [= <-] _; apply good_cannot|].
    intros H O.
    apply (IH (done ++ [x])) in H; auto.
    + intros [O1 Ox]%andb_true_iff e. rewrite !map_app, !sum_app. cbn [map]. rewrite !sum1.
      eapply cong_trans; [apply cong_add; [exact (Hd O1 e)|exact (Hdiv _ _ Ex Ox e)]|]. apply cong_eq. ring.
    + intros e. rewrite HN, <- app_assoc. reflexivity.
Qed.

(** what the product of collected factors is: the product of processed factors, with the
    denominator taken out if it is found *)
Definition factors (Found : bool) (done Qs : list sc) : Prop :=
  forall e, cong M (prod (map (ev I e) done))
    (if Found then prod (map (ev I e) Qs) * V e D else prod (map (ev I e) Qs)).
Lemma mulLoop_good l : forall done Qs Found sTC ok F sTC' ok' Qs',
  (ok = true -> factors Found done Qs) ->
  mulLoop E div true D l Qs Found sTC ok = Ok (Some (F, sTC', ok', Qs')) -> ok' = true -> factors F (done ++ l) Qs'.
Proof.
  induction l as [|x l IH]; intros done Qs Found sTC ok F sTC' ok' Qs' Hd.
  - cbn [mulLoop]. intros [= -> -> -> ->] O. rewrite app_nil_r. auto.
  - cbn [mulLoop]. destruct (_ && true); [discriminate|].
    assert (K : forall q Fd s o, (o = true -> factors Fd (done ++ [x]) (Qs ++ [q])) ->
      (if match Qs with [] => false | q0 :: _ => negb (sameTy E q0 q) end then Ok None
       else mulLoop E div true D l (Qs ++ [q]) Fd s o) = Ok (Some (F, sTC', ok', Qs')) ->
      ok' = true -> factors F (done ++ x :: l) Qs').
    { intros q Fd s o H. destruct (match Qs with [] => _ | _ => _ end); [discriminate|]. intros G O.
      apply (IH (done ++ [x])) in G; auto. rewrite <- app_assoc in G. exact G. }
    assert (K1 : ok = true -> factors Found (done ++ [x]) (Qs ++ [x])).
    { intros O e. specialize (Hd O e). rewrite !map_app, !prod_app. cbn [map]. rewrite !prod1.
      destruct Found.
      - eapply cong_trans; [apply cong_mul_r; exact Hd|]. apply cong_eq. ring.
      - apply cong_mul_r. exact Hd. }
    destruct Found.
    + apply K. exact K1.
    + destruct (div x) as [rx| |] eqn:Ex; cbn [bind]; try discriminate.
      destruct (isZero (rR rx)) eqn:Zx; cbn [negb].
      * destruct (_ && true); [discriminate|]. apply K.
        intros [O Ox]%andb_true_iff e. specialize (Hd O e). rewrite !map_app, !prod_app. cbn [map]. rewrite !prod1.
        pose proof (Hdiv _ _ Ex Ox e) as Hx. rewrite (isZero_ev I e _ Zx) in Hx.
        eapply cong_trans; [apply cong_mul; [exact Hd|exact Hx]|]. apply cong_eq. ring.
      * apply K. exact K1.
Qed.

Lemma visitMul_good l r : visitMulExpr E div true D l = Ok r -> rOk r = true -> good (Mul l) D r.
Proof.
  unfold visitMulExpr. destruct (mulLoop E div true D l [] false true true) as [m| |] eqn:Em; cbn [bind]; try discriminate.
  destruct m as [[[[F s] ok] Qs]|]; [|intros [= <-] _; apply good_cannot].
  assert (H0 : true = true -> factors false [] []) by (intros _ e; apply cong_refl).
  pose proof (mulLoop_good l [] [] false true true F s ok Qs H0 Em) as H. cbn [app] in H.
  destruct F.
  - intros [= <-]. cbn [rOk]. intros O e. specialize (H O e). cbn [rQ rR ev zeroOf].
    destruct Qs as [|q [|q' Qs]].
    + eapply cong_trans; [exact H|]. rewrite Z.add_0_r. apply cong_mul_r, cong_sym, (soundMul _ _ _ SD).
    + cbn [map] in H. rewrite prod1 in H. eapply cong_trans; [exact H|]. apply cong_eq. ring.
    + eapply cong_trans; [exact H|]. rewrite Z.add_0_r. apply cong_mul_r, cong_sym, (soundMul _ _ _ SD).
  - destruct D as [| v | | | | | |] eqn:ED; try (intros [= <-] _; apply good_cannot). rewrite <- ED in *.
    destruct (isZero (rewrite_ E (Mul l) v (zeroOf E D))); [intros [= <-]; cbn [rOk]; discriminate|].
    destruct (negb (sameTy E (Mul l) _)); [intros [= <-]; cbn [rOk]; discriminate|].
    destruct (_ <? _); [intros [= <-]; cbn [rOk]; discriminate|].
    destruct (div (seMinus E (Mul l) (rewrite_ E (Mul l) v (zeroOf E D)))) as [t| |] eqn:Et; cbn [bind]; try discriminate.
    destruct (sceq (rR t) (zeroOf E D)) eqn:Ez; cbn [negb]; [|intros [= <-]; cbn [rOk]; discriminate].
    apply sceq_eq in Ez. intros [= <-]. cbn [rOk]. intros O e. cbn [rQ rR].
    pose proof (Hdiv _ _ Et O e) as Ht. rewrite Ez in Ht. cbn [zeroOf ev] in Ht.
    set (R := rewrite_ E (Mul l) v (zeroOf E D)) in *.
    assert (G : cong M (V e (Mul l) - V e R) (V e (rQ t) * V e D + 0)).
    { eapply cong_trans; [apply cong_sym, (soundMinus _ _ _ SD)|exact Ht]. }
    destruct G as [k G]. exists k. rewrite <- G. ring.
Qed.
Lemma visitCast_good k t x r : visitCast E div true D k t x = Ok r -> good (Cast k t x) D r.
Proof. destruct k; cbn; intros [= <-]; apply good_cannot. Qed.
Lemma visitDiv_good N r : visitDiv E div true D N = Ok r -> rOk r = true -> good N D r.
Proof.
  destruct N; cbn [visitDiv]; intros H O.
  - exact (visitConstant_good _ _ _ H).
  - injection H as <-. apply good_cannot.
  - refine (addLoop_good (Add l) l [] [] [] true true r _ _ H O).
    + intros _ e. cbn. apply cong_refl.
    + reflexivity.
  - exact (visitMul_good _ _ H O).
  - exact (visitAddRec_good _ _ _ H O).
  - exact (visitCast_good _ _ _ _ H).
  - injection H as <-. apply good_cannot.
  - injection H as <-. apply good_cannot.
Qed.
End Visit.

Lemma factorLoop_good div l : (forall N D r, div N D = Ok r -> rOk r = true -> good N D r) ->
  forall Q s ok Q' s' ok', factorLoop div l Q s ok = Ok (Some (Q', s', ok')) -> ok' = true ->
  ok = true /\ forall e, cong M (V e Q) (V e Q' * prod (map (ev I e) l)).
Proof.
  intros Hdiv. induction l as [|d l IH]; intros Q s ok Q' s' ok'; cbn [factorLoop].
  - intros [= -> -> ->] O. split; [exact O|]. intros e. cbn. apply cong_eq. ring.
  - destruct (div Q d) as [t| |] eqn:Et; cbn [bind]; try discriminate.
    destruct (isZero (rR t)) eqn:Zt; cbn [negb]; [|discriminate].
    intros H O. apply IH in H; [|exact O]. destruct H as [[O1 Ot]%andb_true_iff H].
    split; [exact O1|]. intros e. pose proof (Hdiv _ _ _ Et Ot e) as G. rewrite (isZero_ev I e _ Zt) in G.
    eapply cong_trans; [exact G|]. rewrite Z.add_0_r.
    eapply cong_trans; [apply cong_mul_r; exact (H e)|]. cbn [map]. unfold prod. cbn [fold_right]. apply cong_eq. ring.
Qed.

Lemma divide_good : forall fuel N D r, divide E fuel true N D = Ok r -> rOk r = true -> good N D r.
Proof.
  induction fuel as [|fuel IH]; [discriminate|]. intros N D r. cbn [divide].
  destruct (sceq N D) eqn:Eq.
  { apply sceq_eq in Eq. subst D. intros [= <-] _ e. cbn [rQ rR oneOf zeroOf ev]. apply cong_eq. ring. }
  destruct (isZero N) eqn:Zn.
  { intros [= <-] _ e. cbn [rQ rR oneOf zeroOf ev]. rewrite (isZero_ev I e _ Zn). apply cong_eq. ring. }
  destruct (isOne D) eqn:Od.
  { intros [= <-] _ e. cbn [rQ rR oneOf zeroOf ev]. rewrite (isOne_ev I e _ Od). apply cong_eq. ring. }
  cbn [stripCastIfNot].
  destruct D as [| | |Ops| | | |] eqn:ED; rewrite <- ED in *;
    try (apply visitDiv_good; intros N' r'; apply IH).
  destruct (factorLoop (fun N D => divide E fuel true N D) Ops N true true) as [m| |] eqn:Em; cbn [bind]; try discriminate.
  destruct m as [[[Q s] ok]|]; [|intros [= <-] _; apply good_cannot].
  intros [= <-]. cbn [rOk]. intros O. apply factorLoop_good in Em; [|exact IH|exact O].
  destruct Em as [_ H]. intros e. cbn [rQ rR zeroOf ev]. eapply cong_trans; [exact (H e)|].
  rewrite ED. cbn [ev]. rewrite Z.add_0_r. apply cong_refl.
Qed.

(** ** recurrences *)
Definition found (s : sc) (st : search) : Prop :=
  match sL st with
  | Some L => exists c f, sCoef st = Some c /\ sFree st = Some f /\
      (sSafe st = true -> forall e, cong M (V e s) (V e f + Z.of_nat (iter e L) * V e c))
  | None => True
  end.
Definition opsS : list sc -> list sc -> search -> list sc * search :=
  fix ops (l before : list sc) (st : search) {struct l} : list sc * search :=
    match l with
    | [] => (before, st)
    | x :: l =>
      let st := visitS E x st in
      match sL st with
      | Some _ => (before ++ l, st)
      | None => ops l (before ++ [x]) st
      end
    end.
Lemma opsS_found l : Forall (fun x => affine x -> forall st, sL st = None -> found x (visitS E x st)) l ->
  (forall x, In x l -> affine x) ->
  forall before st others st', sL st = None -> opsS l before st = (others, st') ->
  match sL st' with
  | Some L => exists x, In x l /\ found x st' /\
      (forall e, sum (map (ev I e) (before ++ l)) = sum (map (ev I e) others) + V e x) /\
      (forall e, prod (map (ev I e) (before ++ l)) = prod (map (ev I e) others) * V e x)
  | None => True
  end.
Proof.
  induction 1 as [|x l Hx _ IH]; intros Aff before st others st' Hn; cbn [opsS].
  - intros [= <- <-]. rewrite Hn. exact Logic.I.
  - fold opsS. destruct (sL (visitS E x st)) as [L|] eqn:EL.
    + intros [= <- <-]. rewrite EL. exists x. split; [left; reflexivity|].
      split; [apply Hx; [apply Aff; left; reflexivity|exact Hn]|].
      split; intros e; rewrite !map_app; cbn [map];
        [rewrite !sum_app; unfold sum; cbn [fold_right]|rewrite !prod_app; unfold prod; cbn [fold_right]]; ring.
    + intros H. apply IH in H; [|intros y Hy; apply Aff; right; exact Hy|exact EL].
      destruct (sL st') as [L|] eqn:EL'; [|exact Logic.I].
      destruct H as (y & Hy & F & G1 & G2). exists y. split; [right; exact Hy|]. split; [exact F|].
      split; intros e; [rewrite <- (G1 e)|rewrite <- (G2 e)]; rewrite <- app_assoc; reflexivity.
Qed.
Lemma visitS_found s : affine s -> forall st, sL st = None -> found s (visitS E s st).
Proof.
  induction s as [t z|v|l IH|l IH|l L IH|k t x IH|k l IH|] using sc_ind'; intros Aff st Hn.
  1,2,7,8: (unfold found; cbn; rewrite Hn; exact Logic.I).
  - (* Add *)
    assert (A' : forall x, In x l -> affine x).
    { intros x Hx l' L' Hs. apply (Aff l' L'). exact (sub_add _ _ _ Hx Hs). }
    change (found (Add l) (let '(others, st) := opsS l [] st in
      match sL st with
      | Some _ => mkS (sCoef st) (Some (seAdd E (others ++ [orCNC (sFree st)]))) (sL st) (sSafe st)
      | None => mkS (sCoef st) (Some (Add l)) (sL st) (sSafe st)
      end)).
    destruct (opsS l [] st) as [others st'] eqn:Eo. pose proof (opsS_found l IH A' [] st others st' Hn Eo) as H.
    unfold found. destruct (sL st') as [L|] eqn:EL; cbn [sL].
    2:{ exact Logic.I. }
    try rewrite EL in H. destruct H as (x & Hx & F & G & _). unfold found in F. rewrite EL in F. destruct F as (c & f & Ec & Ef & H).
    exists c, (seAdd E (others ++ [f])). cbn [sCoef sFree sSafe]. rewrite Ef. cbn [orCNC].
    split; [exact Ec|]. split; [reflexivity|]. intros Sf e. specialize (H Sf e).
    eapply cong_trans; [|apply cong_sym, cong_add; [apply (soundAdd _ _ _ SD)|apply cong_refl]].
    rewrite map_app, sum_app. cbn [map]. rewrite sum1. change (V e (Add l)) with (sum (map (ev I e) ([] ++ l))).
    rewrite (G e). eapply cong_trans; [apply cong_add; [apply cong_refl|exact H]|]. apply cong_eq. ring.
  - (* Mul *)
    assert (A' : forall x, In x l -> affine x).
    { intros x Hx l' L' Hs. apply (Aff l' L'). exact (sub_mul _ _ _ Hx Hs). }
    change (found (Mul l) (let '(others, st) := opsS l [] st in
      match sL st with
      | Some _ => mkS (Some (seMul E (others ++ [orCNC (sCoef st)])))
                    (Some (seMul E (others ++ [orCNC (sFree st)]))) (sL st) (sSafe st)
      | None => mkS (sCoef st) (Some (Mul l)) (sL st) (sSafe st)
      end)).
    destruct (opsS l [] st) as [others st'] eqn:Eo. pose proof (opsS_found l IH A' [] st others st' Hn Eo) as H.
    unfold found. destruct (sL st') as [L|] eqn:EL; cbn [sL].
    2:{ exact Logic.I. }
    try rewrite EL in H. destruct H as (x & Hx & F & _ & G). unfold found in F. rewrite EL in F. destruct F as (c & f & Ec & Ef & H).
    exists (seMul E (others ++ [c])), (seMul E (others ++ [f])). cbn [sCoef sFree sSafe]. rewrite Ef, Ec. cbn [orCNC].
    split; [reflexivity|]. split; [reflexivity|]. intros Sf e. specialize (H Sf e).
    eapply cong_trans; [|apply cong_sym, cong_add; [|apply cong_mul_l]; apply (soundMul _ _ _ SD)].
    rewrite !map_app, !prod_app. cbn [map]. rewrite !prod1. change (V e (Mul l)) with (prod (map (ev I e) ([] ++ l))).
    rewrite (G e). eapply cong_trans; [apply cong_mul_l; exact H|]. apply cong_eq. ring.
  - (* Rec *)
    assert (Hl : length l = 2%nat) by (apply (Aff l L); constructor).
    destruct l as [|a [|b [|c l]]]; try discriminate. unfold found. cbn [visitS sL stepOf hd sCoef sFree sSafe].
    exists b, a. split; [reflexivity|]. split; [reflexivity|]. intros _ e. cbn [ev map]. rewrite chrec2. apply cong_refl.
  - (* Cast *)
    assert (A' : affine x). { intros l' L' Hs. apply (Aff l' L'). constructor. exact Hs. }
    assert (G : found (Cast k t x)
       (let st := visitS E x (mkS (sCoef st) (sFree st) (sL st) false) in
        mkS (option_map (fun c => seCast E k c t) (sCoef st))
            (option_map (fun c => seCast E k c t) (sFree st)) (sL st) (sSafe st))).
    { pose proof (IH A' (mkS (sCoef st) (sFree st) (sL st) false) Hn) as F. cbn zeta.
      assert (Sf : forall y s0, sSafe s0 = false -> sSafe (visitS E y s0) = false).
      { clear. intros y. induction y as [t z|v|l IH|l IH|l L IH|k t x IH|k l IH|] using sc_ind'; intros s0 H; cbn [visitS]; try exact H.
        - change (sSafe (let '(others, st) := opsS l [] s0 in
            match sL st with
            | Some _ => mkS (sCoef st) (Some (seAdd E (others ++ [orCNC (sFree st)]))) (sL st) (sSafe st)
            | None => mkS (sCoef st) (Some (Add l)) (sL st) (sSafe st)
            end) = false).
          assert (K : forall b s0, sSafe s0 = false -> sSafe (snd (opsS l b s0)) = false).
          { clear -IH. induction IH as [|x l Hx _ IHl]; intros b s0 H; [exact H|]. cbn [opsS]. fold opsS.
            destruct (sL (visitS E x s0)); [exact (Hx s0 H)|]. apply IHl. exact (Hx s0 H). }
          specialize (K [] s0 H). destruct (opsS l [] s0) as [o s1]. cbn [snd] in K. destruct (sL s1); exact K.
        - change (sSafe (let '(others, st) := opsS l [] s0 in
            match sL st with
            | Some _ => mkS (Some (seMul E (others ++ [orCNC (sCoef st)])))
                    (Some (seMul E (others ++ [orCNC (sFree st)]))) (sL st) (sSafe st)
            | None => mkS (sCoef st) (Some (Mul l)) (sL st) (sSafe st)
            end) = false).
          assert (K : forall b s0, sSafe s0 = false -> sSafe (snd (opsS l b s0)) = false).
          { clear -IH. induction IH as [|x l Hx _ IHl]; intros b s0 H; [exact H|]. cbn [opsS]. fold opsS.
            destruct (sL (visitS E x s0)); [exact (Hx s0 H)|]. apply IHl. exact (Hx s0 H). }
          specialize (K [] s0 H). destruct (opsS l [] s0) as [o s1]. cbn [snd] in K. destruct (sL s1); exact K.
        - destruct k; [..|exact H]; exact (IH (mkS (sCoef s0) (sFree s0) (sL s0) false) eq_refl). }
      specialize (Sf x (mkS (sCoef st) (sFree st) (sL st) false) eq_refl). unfold found in *. cbn [sL sCoef sFree sSafe].
      destruct (sL (visitS E x (mkS (sCoef st) (sFree st) (sL st) false))); [|exact Logic.I].
      destruct F as (c & f & Ec & Ef & _). rewrite Ec, Ef. cbn [option_map]. eexists; eexists.
      split; [reflexivity|]. split; [reflexivity|]. rewrite Sf. discriminate. }
    destruct k; try exact G. unfold found. cbn. rewrite Hn. exact Logic.I.
Qed.
Lemma addRec_same s s' : affine s -> computeSCEVAddRec E s = (s', true) -> forall e, cong M (V e s') (V e s).
Proof.
  unfold computeSCEVAddRec. intros Aff. pose proof (visitS_found s Aff search0 eq_refl) as F. unfold found in F.
  destruct (sL (visitS E s search0)) as [L|]; [|intros [= <-] e; apply cong_refl].
  destruct (_ && _); [|intros [= <-] e; apply cong_refl]. destruct F as (c & f & Ec & Ef & H).
  rewrite Ec, Ef. cbn [orCNC]. intros [= <- Sf] e. eapply cong_trans; [apply (soundRec _ _ _ SD)|].
  cbn [map]. rewrite chrec2. apply cong_sym. exact (H Sf e).
Qed.

(** ** common divisors *)
Definition divs (g s : sc) : Prop := forall e, exists q, cong M (V e s) (V e g * q).
Definition divsL (gs : list sc) (s : sc) : Prop := forall e, exists q, cong M (V e s) (prod (map (ev I e) gs) * q).

Lemma termsOf_divs g s : affine s -> (forall l L, computeSCEVAddRec E s = (Rec l L, true) -> length l = 2%nat) ->
  (forall t, In t (termsOf E true s) -> divs g t) -> divs g s.
Proof.
  intros Aff RA H. unfold termsOf in H. destruct (computeSCEVAddRec E s) as [s' b] eqn:Ec.
  assert (D : forall l L, s' = Rec l L -> b = true -> length l = 2%nat).
  { intros l L -> ->. exact (RA l L eq_refl). }
  destruct s' as [| | | |l L| | |] eqn:Es; try (apply H; left; reflexivity).
  destruct b; cbn [orb negb] in H; [|apply H; left; reflexivity].
  specialize (D l L eq_refl eq_refl). destruct l as [|a [|c [|? l]]]; try discriminate. cbn [hd stepOf] in H.
  intros e. destruct (H a (or_introl eq_refl) e) as [q1 H1]. destruct (H c (or_intror (or_introl eq_refl)) e) as [q2 H2].
  exists (q1 + Z.of_nat (iter e L) * q2). eapply cong_trans; [apply cong_sym, (addRec_same s _ Aff Ec)|].
  cbn [ev map]. rewrite chrec2. eapply cong_trans; [apply cong_add; [exact H1|apply cong_mul_l; exact H2]|].
  apply cong_eq. ring.
Qed.

Lemma keepDividers_ok fuel Ds : forall T ok New ok',
  keepDividers E fuel true T Ds ok = Ok (New, ok') -> ok' = true ->
  ok = true /\ divsL New T /\ (forall e, exists q, prod (map (ev I e) Ds) = prod (map (ev I e) New) * q).
Proof.
  induction Ds as [|d Ds IH]; intros T ok New ok'; cbn [keepDividers].
  - intros [= <- ->] O. split; [exact O|]. split; intros e; [exists (V e T)|exists 1].
    + cbn [map]. apply cong_eq. unfold prod. cbn [fold_right]. ring.
    + reflexivity.
  - destruct (divide E fuel true T d) as [r| |] eqn:Ed; cbn [bind]; try discriminate.
    destruct (isZero (rR r)) eqn:Zr; cbn [negb].
    + destruct (keepDividers E fuel true (rQ r) Ds (ok && rOk r)) as [[N' o']| |] eqn:Ek; cbn [bind]; try discriminate.
      intros [= <- <-] O. apply IH in Ek; [|exact O]. destruct Ek as ([O1 Or]%andb_true_iff & H1 & H2).
      split; [exact O1|]. pose proof (divide_good fuel T d r Ed Or) as G. split.
      * intros e. destruct (H1 e) as [q Hq]. exists q. specialize (G e). rewrite (isZero_ev I e _ Zr) in G.
        eapply cong_trans; [exact G|]. rewrite Z.add_0_r. eapply cong_trans; [apply cong_mul_r; exact Hq|].
        cbn [map]. unfold prod. cbn [fold_right]. apply cong_eq. ring.
      * intros e. destruct (H2 e) as [q Hq]. exists q. cbn [map]. unfold prod in *. cbn [fold_right]. rewrite Hq. ring.
    + intros H O. apply IH in H; [|exact O]. destruct H as (O1 & H1 & H2). split; [exact O1|]. split; [exact H1|].
      intros e. destruct (H2 e) as [q Hq]. exists (q * V e d). cbn [map]. unfold prod in *. cbn [fold_right]. rewrite Hq. ring.
Qed.
Lemma divsL_mono gs hs s : (forall e, exists q, prod (map (ev I e) gs) = prod (map (ev I e) hs) * q) -> divsL gs s -> divsL hs s.
Proof.
  intros H G e. destruct (H e) as [q Hq]. destruct (G e) as [p Hp]. exists (q * p).
  eapply cong_trans; [exact Hp|]. rewrite Hq. apply cong_eq. ring.
Qed.
Lemma gcdLoop_ok fuel Ts : forall Ds ok Ds' ok',
  gcdLoop E fuel true Ts Ds ok = Ok (Some Ds', ok') -> ok' = true ->
  ok = true /\ (forall t, In t Ts -> divsL Ds' t) /\ (forall t, divsL Ds t -> divsL Ds' t).
Proof.
  induction Ts as [|t Ts IH]; intros Ds ok Ds' ok'; cbn [gcdLoop].
  - intros [= <- ->] O. split; [exact O|]. split; [intros t []|auto].
  - destruct (keepDividers E fuel true t Ds ok) as [[N o]| |] eqn:Ek; cbn [bind]; try discriminate.
    destruct N as [|n N]; [discriminate|]. intros H O. apply IH in H; [|exact O]. destruct H as (O1 & H1 & H2).
    apply keepDividers_ok in Ek; [|exact O1]. destruct Ek as (O2 & K1 & K2). split; [exact O2|]. split.
    + intros x [->|Hx]; [apply H2; exact K1|apply H1; exact Hx].
    + intros x Hx. apply H2. exact (divsL_mono _ _ _ K2 Hx).
Qed.
Lemma findGCD_divs order fuel Es g :
  (forall l x, In x l -> In x (order l)) ->
  Forall (fun s => affine s /\ forall l L, computeSCEVAddRec E s = (Rec l L, true) -> length l = 2%nat) Es ->
  findGCD E order fuel true Es = Ok (g, true) -> g <> CNC -> forall s, In s Es -> divs g s.
Proof.
  intros Ord Aff H Hg s Hs. rewrite Forall_forall in Aff. apply termsOf_divs; [apply Aff; exact Hs|apply Aff; exact Hs|].
  set (Ts := flat_map (termsOf E true) Es) in *.
  assert (HT : forall t, In t (termsOf E true s) -> In t Ts).
  { intros t Ht. apply in_flat_map. exists s. auto. }
  assert (HO : forall t, In t Ts -> isZero t = true \/ In t (order (filter (fun s => negb (isZero s)) Ts))).
  { intros t Ht. destruct (isZero t) eqn:Zt; [left; reflexivity|right]. apply Ord. apply filter_In. rewrite Zt. auto. }
  intros t Ht. destruct (HO t (HT t Ht)) as [Zt|It].
  { intros e. exists 0. rewrite (isZero_ev I e _ Zt). apply cong_eq. ring. }
  unfold findGCD in H. fold Ts in H. destruct (order _) as [|T Terms]; [destruct It|].
  assert (P1 : forall x, divsL [x] x).
  { intros x e. exists 1. cbn [map]. rewrite prod1. apply cong_eq. ring. }
  destruct Terms as [|T' Terms].
  { destruct It as [->|[]]. injection H as H. destruct (isZero t); [congruence|]. subst g.
    intros e. exists 1. apply cong_eq. ring. }
  cbn [stripCastIfNot] in H. set (Ds := match T with Mul Ops => Ops | _ => [T] end) in *.
  assert (D0 : divsL Ds T).
  { destruct T; try exact (P1 _). intros e. exists 1. subst Ds. cbn [ev]. rewrite Z.mul_1_r. apply cong_refl. }
  clearbody Ds.
  destruct (gcdLoop E fuel true (T' :: Terms) Ds true) as [[D' ok]| |] eqn:Eg; cbn [bind] in H; try discriminate.
  destruct D' as [D'|]; [|injection H; congruence].
  assert (K : ok = true -> divsL D' t).
  { intros O. destruct (gcdLoop_ok _ _ _ _ _ _ Eg O) as (_ & K1 & K2). destruct It as [->|It]; auto. }
  destruct D' as [|d [|d' D']]; injection H as <- ->; specialize (K eq_refl).
  - intros e. destruct (K e) as [q Hq]. exists q. eapply cong_trans; [exact Hq|].
    apply cong_sym, cong_mul_r, (soundMul _ _ _ SD).
  - intros e. destruct (K e) as [q Hq]. exists q. cbn [map] in Hq. rewrite prod1 in Hq. exact Hq.
  - intros e. destruct (K e) as [q Hq]. exists q. eapply cong_trans; [exact Hq|].
    apply cong_sym, cong_mul_r, (soundMul _ _ _ SD).
Qed.
End Id.

(** ** when the result is always reliable *)
Section Ghost.
Variable E : SE.
Section V.
Variable div : sc -> out res.
Variable D : sc.
Lemma addLoop_ghost N l : (forall x r, In x l -> div x = Ok r -> rOk r = true) ->
  forall Qs Rs sTC r, addLoop E div true D N l Qs Rs sTC true = Ok r -> rOk r = true.
Proof.
  induction l as [|x l IH]; intros H Qs Rs sTC r; cbn [addLoop].
  - destruct Qs as [|q [|]], Rs as [|? [|]]; try discriminate; intros [= <-]; reflexivity.
  - destruct (div x) as [rx| |] eqn:Ex; cbn [bind]; try discriminate.
    destruct (_ && true); [intros [= <-]; reflexivity|].
    destruct (match Qs with [] => _ | _ => _ end); [intros [= <-]; reflexivity|].
    rewrite (H x rx (or_introl eq_refl) Ex). cbn [andb]. apply IH. intros y r' Hy. apply H. right. exact Hy.
Qed.
Lemma mulLoop_ghost l : (forall x r, In x l -> div x = Ok r -> rOk r = true) ->
  forall Qs F sTC F' s' ok' Qs', mulLoop E div true D l Qs F sTC true = Ok (Some (F', s', ok', Qs')) -> ok' = true.
Proof.
  induction l as [|x l IH]; intros H Qs F sTC F' s' ok' Qs'; cbn [mulLoop].
  - intros [= _ _ <- _]. reflexivity.
  - assert (H' : forall y r, In y l -> div y = Ok r -> rOk r = true) by (intros y r' Hy; apply H; right; exact Hy).
    destruct (_ && true); [discriminate|].
    destruct F.
    + destruct (match Qs with [] => _ | _ => _ end); [discriminate|]. apply IH. exact H'.
    + destruct (div x) as [rx| |] eqn:Ex; cbn [bind]; try discriminate.
      destruct (negb (isZero (rR rx))).
      * destruct (match Qs with [] => _ | _ => _ end); [discriminate|]. apply IH. exact H'.
      * destruct (_ && true); [discriminate|]. destruct (match Qs with [] => _ | _ => _ end); [discriminate|].
        rewrite (H x rx (or_introl eq_refl) Ex). cbn [andb]. apply IH. exact H'.
Qed.
(** if a factor is divisible then the denominator is found *)
Lemma mulLoop_found x0 l : (forall r, div x0 = Ok r -> isZero (rR r) = true) ->
  forall Qs F sTC ok F' s' ok' Qs', F = true \/ In x0 l ->
  mulLoop E div true D l Qs F sTC ok = Ok (Some (F', s', ok', Qs')) -> F' = true.
Proof.
  intros H0. induction l as [|x l IH]; intros Qs F sTC ok F' s' ok' Qs' HF; cbn [mulLoop].
  - intros [= <- _ _ _]. destruct HF as [HF|[]]. exact HF.
  - destruct (_ && true); [discriminate|].
    destruct F.
    + destruct (match Qs with [] => _ | _ => _ end); [discriminate|]. apply IH. left; reflexivity.
    + destruct (div x) as [rx| |] eqn:Ex; cbn [bind]; try discriminate.
      destruct (isZero (rR rx)) eqn:Zx; cbn [negb].
      * destruct (_ && true); [discriminate|]. destruct (match Qs with [] => _ | _ => _ end); [discriminate|].
        apply IH. left; reflexivity.
      * destruct (match Qs with [] => _ | _ => _ end); [discriminate|]. apply IH. right.
        destruct HF as [HF|[->|HF]]; [discriminate| |exact HF]. rewrite (H0 _ Ex) in Zx. discriminate.
Qed.
Lemma rec_ghost l L : (forall x r, In x l -> div x = Ok r -> rOk r = true) ->
  forall r, visitAddRecExpr E div true D l L = Ok r -> rOk r = true.
Proof.
  intros H r. unfold visitAddRecExpr. destruct l as [|a [|b [|]]]; try (intros [= <-]; reflexivity).
  destruct (div a) as [ra| |] eqn:Ea; cbn [bind]; try discriminate.
  destruct (div b) as [rb| |] eqn:Eb; cbn [bind]; try discriminate.
  destruct (_ || _); [intros [= <-]; reflexivity|]. destruct (_ && _); [intros [= <-]; reflexivity|].
  intros [= <-]. cbn [rOk]. rewrite (H a ra), (H b rb); auto; [right; left; reflexivity|left; reflexivity].
Qed.
Lemma const_ghost t z r : visitConstant E D t z = Ok r -> rOk r = true.
Proof.
  unfold visitConstant. destruct D; try (intros [= <-]; reflexivity).
  destruct (Z.eqb _ _); [discriminate|]. intros [= <-]. reflexivity.
Qed.
End V.
Lemma cast_ghost div D k t x r : visitCast E div true D k t x = Ok r -> rOk r = true.
Proof. destruct k; cbn; intros [= <-]; reflexivity. Qed.

(** a denominator which is neither a variable nor a product *)
Definition simpleDen (D : sc) : Prop := match D with Unk _ | Mul _ => False | _ => True end.
Lemma divide_ghost_simple D : simpleDen D -> forall fuel N r, divide E fuel true N D = Ok r -> rOk r = true.
Proof.
  intros HD. induction fuel as [|fuel IH]; intros N r; cbn [divide]; [discriminate|].
  destruct (sceq N D); [intros [= <-]; reflexivity|]. destruct (isZero N); [intros [= <-]; reflexivity|].
  destruct (isOne D); [intros [= <-]; reflexivity|]. cbn [stripCastIfNot].
  assert (V : visitDiv E (fun N => divide E fuel true N D) true D N = Ok r -> rOk r = true).
  { destruct N; cbn [visitDiv].
    - apply const_ghost.
    - intros [= <-]; reflexivity.
    - apply addLoop_ghost. intros x r' _. apply IH.
    - unfold visitMulExpr.
      destruct (mulLoop E (fun N => divide E fuel true N D) true D l [] false true true) as [m| |] eqn:Em; cbn [bind]; try discriminate.
      destruct m as [[[[F s] ok] Qs]|]; [|intros [= <-]; reflexivity].
      apply mulLoop_ghost in Em; [|intros x r' _; apply IH]. subst ok.
      destruct F; [intros [= <-]; reflexivity|]. destruct D; try contradiction; intros [= <-]; reflexivity.
    - apply rec_ghost. intros x r' _. apply IH.
    - apply cast_ghost.
    - intros [= <-]; reflexivity.
    - intros [= <-]; reflexivity. }
  destruct D; try contradiction; exact V.
Qed.
(** a variable and an expression it is factored out of *)
Lemma divide_ghost_factored v : canonical E -> forall fuel N r, factored v N ->
  divide E fuel true N (Unk v) = Ok r -> rOk r = true.
Proof.
  intros [CR CM CS]. induction fuel as [|fuel IH]; intros N r HN; cbn [divide]; [discriminate|].
  destruct (sceq N (Unk v)); [intros [= <-]; reflexivity|]. destruct (isZero N) eqn:ZN; [intros [= <-]; reflexivity|].
  cbn [isOne stripCastIfNot]. inversion HN as [t z|w|l Hl|l L Hl|l Hl HM|k t x|k l|]; subst N; cbn [visitDiv].
  - apply const_ghost.
  - intros [= <-]; reflexivity.
  - rewrite Forall_forall in Hl. apply addLoop_ghost. intros x r' Hx. apply IH. auto.
  - rewrite Forall_forall in Hl. apply rec_ghost. intros x r' Hx. apply IH. auto.
  - rewrite Forall_forall in Hl. unfold visitMulExpr.
    destruct (mulLoop E (fun N => divide E fuel true N (Unk v)) true (Unk v) l [] false true true) as [m| |] eqn:Em; cbn [bind]; try discriminate.
    destruct m as [[[[F s] ok] Qs]|]; [|intros [= <-]; reflexivity].
    pose proof (mulLoop_ghost _ (Unk v) l (fun x r' Hx => IH x r' (Hl x Hx)) _ _ _ _ _ _ _ Em) as Eok. subst ok.
    destruct F; [intros [= <-]; reflexivity|].
    destruct HM as [HM|HM].
    { eapply (mulLoop_found _ (Unk v) (Unk v) l) in Em; [discriminate| |right; exact HM].
      intros r'. destruct fuel as [|fuel']; cbn [divide]; [discriminate|].
      assert (Q : sceq (Unk v) (Unk v) = true) by (apply sceq_eq; reflexivity). rewrite Q. intros [= <-]. reflexivity. }
    assert (FM : freeOf v (Mul l)).
    { intros S. inversion S as [| |a x l' Hx Hs| | |]; subst. rewrite Forall_forall in HM. exact (HM x Hx Hs). }
    rewrite (CR _ v _ FM). cbn [isZero].
    assert (T : sameTy E (Mul l) (Mul l) = true) by (apply Nat.eqb_refl). rewrite T. cbn [negb].
    rewrite CM. pose proof (CS (ty E (Mul l)) 0 l) as SZ. destruct (Z.ltb_spec (sizeOf E (Mul l)) (sizeOf E (Cst (ty E (Mul l)) 0))); [lia|].
    destruct fuel as [|fuel']; cbn [divide bind]; [discriminate|]. cbn [sceq isZero Z.eqb bind rR].
    assert (Q : sceq (zeroOf E (Unk v)) (zeroOf E (Unk v)) = true) by (apply sceq_eq; reflexivity). rewrite Q. cbn [negb].
    intros [= <-]. reflexivity.
  - apply cast_ghost.
  - intros [= <-]; reflexivity.
  - intros [= <-]; reflexivity.
Qed.
End Ghost.
