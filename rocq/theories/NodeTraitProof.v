(** Proofs about combination of traits of locations of an alias node. *)
From Coq Require Import NArith PeanoNat Bool List Lia.
From Verif Require Import TraitModel TraitSpec Prop_Trait ClarifyModel CombineModel CombineSpec CombineProof
  NodeTraitModel NodeTraitSpec.
Import ListNotations.
Local Open Scope nat_scope.

Ltac nu := cbn; let Q := fresh in intro Q; decompose [or] Q; try discriminate; contradiction.
Lemma byClass (P : descr -> bool) : (forall d e, (forall x, ~ In x unitTraits -> d x = e x) -> P d = P e) ->
  forallb (fun cs => P (fun x => member x cs)) describable = true -> forall d, wellFormed d -> P d = true.
Proof.
  intros Ex T d W. destruct (classSet d W) as (cs & S & C). rewrite (Ex _ _ C).
  rewrite forallb_forall in T. exact (T cs S).
Qed.
Definition poss (d : descr) (k : kind) : bool := if anyDep d then d (tagOf k) else negb (safe d).
Lemma may_poss d k : may d k <-> poss d k = true.
Proof.
  unfold may, possible, poss, anyDep, safe. destruct (d TFlow || d TAnti || d TOutput); [tauto|].
  destruct (d TNoAccess), (d TReadonly), (d TShared); cbn; split; try tauto; try discriminate; intros (A & B & C); discriminate.
Qed.
Lemma poss_ext d e k : (forall x, ~ In x unitTraits -> d x = e x) -> poss d k = poss e k.
Proof. intro H. unfold poss, anyDep, safe. rewrite !H by (try (destruct k); nu). reflexivity. Qed.
Lemma spur_ext d e : (forall x, ~ In x unitTraits -> d x = e x) -> hasSpuriousDep d = hasSpuriousDep e.
Proof. intro H. unfold hasSpuriousDep, hasNoDep, isAny. cbn [existsb]. rewrite !H by nu. reflexivity. Qed.
Lemma safe_ext d e : (forall x, ~ In x unitTraits -> d x = e x) -> safe d = safe e.
Proof. intro H. unfold safe. rewrite !H by nu. reflexivity. Qed.
Lemma anyDep_ext d e : (forall x, ~ In x unitTraits -> d x = e x) -> anyDep d = anyDep e.
Proof. intro H. unfold anyDep. rewrite !H by nu. reflexivity. Qed.

(** * Classes *)
Definition ro (c : N) : bool := N.eqb c NoAccess || N.eqb c Readonly.
Lemma class_step c d : In c closed -> wellFormed d ->
  hasSharedJoin (tAnd c (encClass d)) = hasSharedJoin c && safe d /\
  N.eqb (tAnd c (encClass d)) NoAccess = N.eqb c NoAccess && d TNoAccess /\
  ro (tAnd c (encClass d)) = ro c && (d TNoAccess || d TReadonly) /\
  (d TNoAccess = true -> tAnd c (encClass d) = c) /\ tAnd NoAccess (encClass d) = encClass d /\ In (encClass d) closed.
Proof.
  intros Ic W.
  pose (P := fun d : descr => forallb (fun c =>
    Bool.eqb (hasSharedJoin (tAnd c (encClass d))) (hasSharedJoin c && safe d) &&
    Bool.eqb (N.eqb (tAnd c (encClass d)) NoAccess) (N.eqb c NoAccess && d TNoAccess) &&
    Bool.eqb (ro (tAnd c (encClass d))) (ro c && (d TNoAccess || d TReadonly)) &&
    implb (d TNoAccess) (N.eqb (tAnd c (encClass d)) c) && N.eqb (tAnd NoAccess (encClass d)) (encClass d) && inb (encClass d) closed) closed).
  assert (H : P d = true).
  { apply byClass; [|vm_compute; reflexivity|exact W]. intros a b E. unfold P. rewrite (encClass_ext _ _ E), (safe_ext _ _ E).
    rewrite (E TNoAccess), (E TReadonly) by nu. reflexivity. }
  unfold P in H. rewrite forallb_forall in H. specialize (H c Ic). rewrite !andb_true_iff in H. destruct H as (((((A & B) & C) & D) & F) & G).
  apply eqb_prop in A, B, C. split; [exact A|]. split; [exact B|]. split; [exact C|]. split; [|split].
  - intro Q. rewrite Q in D. cbn [implb] in D. apply N.eqb_eq in D. exact D.
  - apply N.eqb_eq; exact F.
  - apply inb_In; exact G.
Qed.
Definition classTraits : list trait := [TNoAccess; TReadonly; TShared; TReduction; TInduction; TPrivate; TFirstPrivate; TLastPrivate; TSecondToLastPrivate; TDynamicPrivate].
Definition descrOf (c : N) : descr := fun t => match classPart c with Some ts => member t ts | None => false end.
Definition kinds := [KFlow; KAnti; KOutput].
Lemma in_kinds k : In k kinds.
Proof. destruct k; cbn; tauto. Qed.
Lemma class_one d : wellFormed d ->
  (forall t, In t classTraits -> descrOf (encClass d) t = true -> d t = true) /\
  (hasSpuriousDep d = true -> forall k, poss (descrOf (encClass d)) k = poss d k) /\
  (hasSpuriousDep d = false -> anyDep d = false -> safe (descrOf (encClass d)) = safe d) /\
  (hasSpuriousDep d = false -> forall t, isAny (trait_eqb t) [TFlow; TAnti; TOutput] = true -> d t = true -> descrOf (encClass d) t = true).
Proof.
  intros W.
  pose (P := fun d : descr =>
    forallb (fun t => implb (descrOf (encClass d) t) (d t)) classTraits &&
    implb (hasSpuriousDep d) (forallb (fun k => Bool.eqb (poss (descrOf (encClass d)) k) (poss d k)) kinds) &&
    implb (negb (hasSpuriousDep d) && negb (anyDep d)) (Bool.eqb (safe (descrOf (encClass d))) (safe d)) &&
    implb (negb (hasSpuriousDep d)) (forallb (fun t => implb (d t) (descrOf (encClass d) t)) [TFlow; TAnti; TOutput])).
  assert (H : P d = true).
  { apply byClass; [|vm_compute; reflexivity|exact W]. intros a b E. unfold P.
    rewrite (encClass_ext _ _ E), (safe_ext _ _ E), (anyDep_ext _ _ E), (spur_ext _ _ E). unfold classTraits, kinds. cbn [forallb].
    rewrite !(poss_ext _ _ _ E). rewrite !E by nu. reflexivity. }
  unfold P in H. rewrite !andb_true_iff in H. destruct H as (((A & B) & C) & D). split; [|split; [|split]].
  - intros t It Q. rewrite forallb_forall in A. specialize (A t It). rewrite Q in A. exact A.
  - intros Q k. rewrite Q in B. cbn [implb] in B. rewrite forallb_forall in B. exact (eqb_prop _ _ (B k (in_kinds k))).
  - intros Q1 Q2. rewrite Q1, Q2 in C. cbn [implb negb andb] in C. exact (eqb_prop _ _ C).
  - intros Q t It Qt. rewrite Q in D. cbn [implb negb] in D. rewrite forallb_forall in D.
    assert (Jt : In t [TFlow; TAnti; TOutput]) by (destruct t; try discriminate It; cbn; tauto).
    specialize (D t Jt). rewrite Qt in D. exact D.
Qed.
Lemma flagSet_encode d t : wellFormed d -> In t unitTraits -> flagSet (encode d) t = d t.
Proof.
  intros W U. rewrite encode_split, flagSet_and by exact U. rewrite (flagSet_bit (encUnits d)) by exact U.
  rewrite encUnits_flag, negb_involutive by exact U.
  assert (H : forallb (fun t => negb (flagSet (encClass d) t)) unitTraits = true).
  { apply (byClass (fun d => forallb (fun t => negb (flagSet (encClass d) t)) unitTraits)); [|vm_compute; reflexivity|exact W].
    intros a b E. rewrite (encClass_ext _ _ E). reflexivity. }
  rewrite forallb_forall in H. specialize (H t U). destruct (flagSet (encClass d) t); [discriminate H|]. apply orb_false_r.
Qed.

(** * The loop over locations *)
Definition keep (ig : bool) (ms : list mem) (m : mem) : bool :=
  negb (has m TRedundant && ig) && negb (has m TIndirectAccess && negb (has m TDirectAccess) && isCovered ig ms m).
Definition accessed (m : mem) : bool := negb (has m TNoAccess).
Section Loop.
  Variable ig : bool.
  Variable ms0 : list mem.
  Notation st := (step ig ms0).
  Notation kp := (keep ig ms0).
  Ltac fields := unfold step, keep; destruct (_ && ig); [|destruct (_ && isCovered ig ms0 _)]; cbn [negb andb].
  Lemma f_explicit ms : forall s, cExplicit (fold_left st ms s) = cExplicit s || existsb (fun m => has m TExplicitAccess && negb (has m TNoAccess) && mOwn m) ms.
  Proof. induction ms as [|m ms IH]; intro s; cbn [fold_left existsb]; [symmetry; apply orb_false_r|]. rewrite IH, orb_assoc. f_equal. fields; reflexivity. Qed.
  Lemma f_promoted ms : forall s, cNoPromoted (fold_left st ms s) = cNoPromoted s || existsb (fun m => has m TNoPromotedScalar && mOwn m) ms.
  Proof. induction ms as [|m ms IH]; intro s; cbn [fold_left existsb]; [symmetry; apply orb_false_r|]. rewrite IH, orb_assoc. f_equal. fields; reflexivity. Qed.
  Lemma f_direct ms : forall s, cDirect (fold_left st ms s) = cDirect s || existsb (fun m => has m TDirectAccess && mOwn m) ms.
  Proof. induction ms as [|m ms IH]; intro s; cbn [fold_left existsb]; [symmetry; apply orb_false_r|]. rewrite IH, orb_assoc. f_equal. fields; reflexivity. Qed.
  Lemma f_indirect ms : forall s, cIndirect (fold_left st ms s) = cIndirect s || existsb (fun m => has m TIndirectAccess && mOwn m) ms.
  Proof. induction ms as [|m ms IH]; intro s; cbn [fold_left existsb]; [symmetry; apply orb_false_r|]. rewrite IH, orb_assoc. f_equal. fields; reflexivity. Qed.
  Lemma f_redundant ms : forall s, cRedundant (fold_left st ms s) = cRedundant s || existsb (fun m => has m TRedundant && mOwn m) ms.
  Proof. induction ms as [|m ms IH]; intro s; cbn [fold_left existsb]; [symmetry; apply orb_false_r|]. rewrite IH, orb_assoc. f_equal. fields; reflexivity. Qed.
  Lemma f_noredundant ms : forall s, cNoRedundant (fold_left st ms s) = cNoRedundant s || existsb (fun m => negb (has m TRedundant) && mOwn m) ms.
  Proof. induction ms as [|m ms IH]; intro s; cbn [fold_left existsb]; [symmetry; apply orb_false_r|]. rewrite IH, orb_assoc. f_equal. fields; reflexivity. Qed.
  Lemma f_number ms : forall s, cNumber (fold_left st ms s) = cNumber s + length (filter accessed (filter kp ms)).
  Proof.
    induction ms as [|m ms IH]; intro s; cbn [fold_left filter]; [symmetry; apply Nat.add_0_r|]. rewrite IH.
    fields; cbn [cNumber filter]; [reflexivity|reflexivity|]. unfold accessed at 2. destruct (has m TNoAccess); cbn [negb length]; lia.
  Qed.
  Lemma f_spurious ms : forall s, cSpurious (fold_left st ms s) = cSpurious s || existsb (fun m => hasSpuriousDep (mDescr m)) (filter kp ms).
  Proof.
    induction ms as [|m ms IH]; intro s; cbn [fold_left filter]; [symmetry; apply orb_false_r|]. rewrite IH.
    fields; cbn [cSpurious existsb]; [reflexivity|reflexivity|]. symmetry. apply orb_assoc.
  Qed.
  Lemma f_dep t ms : forall s, cDep (fold_left st ms s) t = cDep s t || isAny (trait_eqb t) [TFlow; TAnti; TOutput] && existsb (fun m => has m t) (filter kp ms).
  Proof.
    induction ms as [|m ms IH]; intro s; cbn [fold_left filter]; [cbn [existsb]; rewrite andb_false_r; symmetry; apply orb_false_r|]. rewrite IH.
    fields; cbn [cDep existsb]; [reflexivity|reflexivity|]. destruct (isAny _ _), (cDep s t), (has m t); cbn; reflexivity.
  Qed.
  Hypothesis wf : forall m, In m ms0 -> wellFormed (mDescr m).
  Lemma f_class ms : (forall m, In m ms -> In m ms0) -> forall s, good (cTrait s) -> good (cTrait (fold_left st ms s)) /\
    dropUnitFlag (cTrait (fold_left st ms s)) = fold_left (fun c m => tAnd c (encClass (mDescr m))) (filter kp ms) (dropUnitFlag (cTrait s)) /\
    forall t, In t unitTraits -> flagSet (cTrait (fold_left st ms s)) t =
      flagSet (cTrait s) t || existsb (fun m => has m t) (filter kp ms) || trait_eqb t TRedundant && existsb (fun m => has m TRedundant && mOwn m) ms.
  Proof.
    induction ms as [|m ms IH]; intros Sub s G; cbn [fold_left filter existsb].
    - split; [exact G|]. split; [reflexivity|]. intros t U. rewrite andb_false_r, !orb_false_r. reflexivity.
    - pose proof (wf m (Sub m (or_introl eq_refl))) as Wm.
      set (w := if has m TRedundant && mOwn m then tAnd (cTrait s) Redundant else cTrait s).
      assert (Gw : good w) by (unfold w; destruct (has m TRedundant && mOwn m); [apply good_and; [exact G|exact (good_flag TRedundant)]|exact G]).
      assert (Dw : dropUnitFlag w = dropUnitFlag (cTrait s)).
      { unfold w. destruct (has m TRedundant && mOwn m); [|reflexivity]. rewrite drop_and. destruct G as [_ C].
        assert (X : forallb (fun c => N.eqb (tAnd c (dropUnitFlag Redundant)) c) closed = true) by (vm_compute; reflexivity).
        rewrite forallb_forall in X. apply N.eqb_eq. exact (X _ C). }
      assert (Fw : forall t, In t unitTraits -> flagSet w t = flagSet (cTrait s) t || trait_eqb t TRedundant && (has m TRedundant && mOwn m)).
      { intros t U. unfold w. destruct (has m TRedundant && mOwn m); [|rewrite andb_false_r; symmetry; apply orb_false_r].
        rewrite flagSet_and by exact U. f_equal. rewrite andb_true_r. clear -U. cbn in U; decompose [or] U; subst; try contradiction; reflexivity. }
      destruct (encode_class (mDescr m) Wm) as [Ge De].
      assert (Ts : cTrait (st s m) = if kp m then tAnd w (encode (mDescr m)) else w).
      { fields; reflexivity. }
      assert (Gs : good (cTrait (st s m))) by (rewrite Ts; destruct (kp m); [apply good_and; assumption|exact Gw]).
      destruct (IH (fun x Ix => Sub x (or_intror Ix)) (st s m) Gs) as (A & B & C). split; [exact A|]. rewrite B. split.
      + rewrite Ts. destruct (kp m); [|rewrite Dw; reflexivity]. cbn [fold_left]. rewrite drop_and, Dw, De. reflexivity.
      + intros t U. rewrite (C t U), Ts. destruct (kp m); cbn [existsb].
        * rewrite flagSet_and, (Fw t U), (flagSet_encode _ t Wm U) by exact U. change (mDescr m t) with (has m t).
          destruct (flagSet (cTrait s) t), (trait_eqb t TRedundant), (has m TRedundant && mOwn m), (has m t), (existsb (fun m => has m t) (filter kp ms)); reflexivity.
        * rewrite (Fw t U). destruct (flagSet (cTrait s) t), (trait_eqb t TRedundant), (has m TRedundant && mOwn m), (existsb (fun m => has m t) (filter kp ms)); reflexivity.
  Qed.
End Loop.
Definition meet (K : list mem) (c : N) : N := fold_left (fun c m => tAnd c (encClass (mDescr m))) K c.
Lemma meet_spec K : (forall m, In m K -> wellFormed (mDescr m)) -> forall c, In c closed ->
  In (meet K c) closed /\ hasSharedJoin (meet K c) = hasSharedJoin c && forallb (fun m => safe (mDescr m)) K /\
  N.eqb (meet K c) NoAccess = N.eqb c NoAccess && forallb (fun m => has m TNoAccess) K /\
  ro (meet K c) = ro c && forallb (fun m => has m TNoAccess || has m TReadonly) K /\
  (forallb (fun m => has m TNoAccess) K = true -> meet K c = c).
Proof.
  induction K as [|m K IH]; intros W c Ic; cbn [meet fold_left forallb].
  - rewrite !andb_true_r. auto.
  - destruct (class_step c (mDescr m) Ic (W m (or_introl eq_refl))) as (A & B & C & D & _ & E).
    destruct (IH (fun x Ix => W x (or_intror Ix)) (tAnd c (encClass (mDescr m))) (closed_and _ _ Ic E)) as (A1 & A2 & A3 & A4 & A5).
    unfold meet in *. split; [exact A1|]. rewrite A2, A3, A4, A, B, C, !andb_assoc. split; [reflexivity|]. split; [reflexivity|]. split; [reflexivity|].
    intro H. apply andb_true_iff in H as [H1 H2]. rewrite (A5 H2). exact (D H1).
Qed.
Lemma meet_one K : (forall m, In m K -> wellFormed (mDescr m)) -> length (filter accessed K) = 1 ->
  exists m, In m K /\ has m TNoAccess = false /\ (forall m', In m' K -> m' = m \/ has m' TNoAccess = true) /\
    meet K NoAccess = encClass (mDescr m) /\ (forall f : mem -> bool, (forall m', In m' K -> has m' TNoAccess = true -> f m' = false) -> existsb f K = f m).
Proof.
  assert (NA : In NoAccess closed) by (cbn; tauto).
  induction K as [|m K IH]; intros W L; cbn [filter] in L; [discriminate L|].
  pose proof (W m (or_introl eq_refl)) as Wm. destruct (class_step NoAccess (mDescr m) NA Wm) as (_ & _ & _ & D & F & E).
  unfold accessed at 1 in L. destruct (has m TNoAccess) eqn:N; cbn [negb length] in L.
  - destruct (IH (fun x Ix => W x (or_intror Ix)) L) as (x & Ix & Nx & O & M & Q). exists x. split; [right; exact Ix|]. split; [exact Nx|]. split; [|split].
    + intros m' [<-|Im]; [right; exact N|exact (O m' Im)].
    + cbn [meet fold_left]. rewrite (D N). exact M.
    + intros f Hf. cbn [existsb]. rewrite (Hf m (or_introl eq_refl) N). cbn [orb]. apply Q. intros m' Im. apply Hf. right; exact Im.
  - assert (Z : forall x, In x K -> has x TNoAccess = true).
    { intros x Ix. destruct (has x TNoAccess) eqn:Nx; [reflexivity|]. exfalso. assert (I1 : In x (filter accessed K)) by (apply filter_In; split; [exact Ix|unfold accessed; rewrite Nx; reflexivity]).
      destruct (filter accessed K); [destruct I1|discriminate L]. }
    exists m. split; [left; reflexivity|]. split; [exact N|]. split; [|split].
    + intros m' [<-|Im]; [left; reflexivity|right; exact (Z m' Im)].
    + cbn [meet fold_left]. rewrite F. destruct (meet_spec K (fun x Ix => W x (or_intror Ix)) _ E) as (_ & _ & _ & _ & H). apply H. apply forallb_forall. exact Z.
    + intros f Hf. cbn [existsb]. assert (X : existsb f K = false).
      { destruct (existsb f K) eqn:Ef; [|reflexivity]. apply existsb_exists in Ef as (x & Ix & Fx). rewrite (Hf x (or_intror Ix) (Z x Ix)) in Fx. discriminate Fx. }
      rewrite X. apply orb_false_r.
Qed.

(** * Traits of a node *)
Definition depTag (t : trait) : bool := isAny (trait_eqb t) [TFlow; TAnti; TOutput].
Definition four : list N := [NoAccess; Readonly; Shared; Dependency].
Lemma merged w x : good w -> In x four -> good (tAnd (tOr w AllUnitFlags) x) /\ dropUnitFlag (tAnd (tOr w AllUnitFlags) x) = x /\
  forall t, In t unitTraits -> flagSet (tAnd (tOr w AllUnitFlags) x) t = flagSet w t.
Proof.
  intros [F C] Ix.
  assert (E : dropUnitFlag (tOr w AllUnitFlags) = NoAccess).
  { rewrite dropUnitFlag_1023. unfold tOr. rewrite <- N.lor_assoc. change (N.lor AllUnitFlags 1023) with NoAccess.
    unfold fits in F. rewrite <- F. rewrite N.lor_land_distr_l, N.lor_diag. apply N.bits_inj. intro n. rewrite N.land_spec, N.lor_spec.
    destruct (N.testbit w n), (N.testbit NoAccess n); reflexivity. }
  assert (D : dropUnitFlag (tAnd (tOr w AllUnitFlags) x) = x).
  { rewrite drop_and, E. unfold four in Ix. cbn in Ix. destruct Ix as [<-|[<-|[<-|[<-|[]]]]]; vm_compute; reflexivity. }
  split; [|split; [exact D|]].
  - split; [|rewrite D; unfold four in Ix; cbn in Ix; destruct Ix as [<-|[<-|[<-|[<-|[]]]]]; cbn; tauto].
    unfold fits, tAnd. rewrite <- N.land_assoc. f_equal. unfold four in Ix. cbn in Ix. destruct Ix as [<-|[<-|[<-|[<-|[]]]]]; vm_compute; reflexivity.
  - intros t U. rewrite flagSet_and by exact U. rewrite !flagSet_bit by exact U. unfold tOr. rewrite N.lor_spec.
    replace (N.testbit AllUnitFlags (flagBit t)) with false by (clear -U; cbn in U; decompose [or] U; subst; try contradiction; vm_compute; reflexivity).
    replace (N.testbit x (flagBit t)) with true.
    + cbn [negb]. rewrite !orb_false_r. reflexivity.
    + clear -U Ix. unfold four in Ix. cbn in Ix. destruct Ix as [<-|[<-|[<-|[<-|[]]]]]; cbn in U; decompose [or] U; subst; try contradiction; vm_compute; reflexivity.
Qed.
Definition fin (n : nat) (c : N) : N :=
  if Nat.ltb 1 n then (if N.eqb c NoAccess then NoAccess else if N.eqb c Readonly then Readonly else if hasSharedJoin c then Shared else Dependency) else c.
Lemma summary_spec s : good (cTrait s) -> good (summary s) /\ dropUnitFlag (summary s) = fin (cNumber s) (dropUnitFlag (cTrait s)) /\
  forall t, In t unitTraits -> flagSet (summary s) t = flagSet (cTrait s) t.
Proof.
  intro G. unfold summary, fin. destruct (Nat.ltb 1 (cNumber s)); [|auto]. rewrite shared_drop. apply merged; [exact G|].
  destruct (N.eqb _ NoAccess); [cbn; tauto|]. destruct (N.eqb _ Readonly); [cbn; tauto|]. destruct (hasSharedJoin _); cbn; tauto.
Qed.
Definition nodeFlag (ms : list mem) (t : trait) : bool :=
  match t with
  | TExplicitAccess => existsb (fun m => has m TExplicitAccess && negb (has m TNoAccess) && mOwn m) ms
  | TNoRedundant => existsb (fun m => negb (has m TRedundant) && mOwn m) ms
  | TNoPromotedScalar | TRedundant | TDirectAccess | TIndirectAccess => existsb (fun m => has m t && mOwn m) ms
  | _ => true
  end.
Lemma node_spec ig ms : (forall m, In m ms -> wellFormed (mDescr m)) ->
  let K := filter (keep ig ms) ms in
  exists R, finishNode (fold_left (step ig ms) ms cInit) = Some R /\
    (forall t, ~ In t unitTraits -> R t = if depTag t && negb (existsb (fun m => hasSpuriousDep (mDescr m)) K) then existsb (fun m => has m t) K
       else descrOf (fin (length (filter accessed K)) (meet K NoAccess)) t) /\
    (forall t, In t unitTraits -> R t = (existsb (fun m => has m t) K || trait_eqb t TRedundant && existsb (fun m => has m TRedundant && mOwn m) ms) && nodeFlag ms t).
Proof.
  intros W K. set (s := fold_left (step ig ms) ms cInit).
  destruct (f_class ig ms W ms (fun m Im => Im) cInit) as (G & D & F); [split; [reflexivity|cbn; tauto]|]. fold s in G, D, F. fold K in D, F.
  destruct (summary_spec s G) as (Gs & Ds & Fs). rewrite D in Ds. change (fold_left _ K (dropUnitFlag (cTrait cInit))) with (meet K NoAccess) in Ds.
  unfold s at 2 in Ds. rewrite f_number in Ds. change (cNumber cInit) with 0 in Ds. cbn [Nat.add] in Ds. fold K in Ds.
  destruct (classPart_total _ Gs) as [cs C]. unfold finishNode, traitsOf. rewrite C. eexists. split; [reflexivity|].
  assert (Cd : forall t, descrOf (fin (length (filter accessed K)) (meet K NoAccess)) t = member t cs).
  { intro t. unfold descrOf. rewrite <- Ds, classPart_drop, C. reflexivity. }
  assert (Fl : forall t, fold_left dSet (unitPart (summary s) ++ cs) dNone t = flagSet (summary s) t || member t cs).
  { intro t. rewrite fold_dSet. cbn [dNone orb]. rewrite member_app, unitPart_member. reflexivity. }
  assert (Un : forall b u (d : descr) t, unsetIf b u d t = d t && negb (b && trait_eqb t u)).
  { intros b u d t. unfold unsetIf, dUnset. destruct b; cbn [andb negb]; [apply andb_comm|symmetry; apply andb_true_r]. }
  split.
  - intros t U. rewrite !Un. 
    assert (Nu : forall b u, In u unitTraits -> negb (b && trait_eqb t u) = true).
    { intros b u Iu. destruct b; [|reflexivity]. cbn [andb]. destruct (trait_eqb t u) eqn:E; [|reflexivity]. apply trait_eqb_eq in E. subst u. contradiction. }
    rewrite !Nu by (cbn; tauto). rewrite !andb_true_r. fold (depTag t). unfold s at 1 2. rewrite f_spurious, f_dep. fold K. change (cSpurious cInit) with false. change (cDep cInit t) with false. cbn [orb].
    destruct (depTag t) eqn:Et; cbn [andb].
    + destruct (existsb (fun m => hasSpuriousDep (mDescr m)) K) eqn:Sp; cbn [negb].
      * rewrite Fl, Cd. replace (flagSet (summary s) t) with false; [reflexivity|]. unfold flagSet. destruct t; try reflexivity; exfalso; apply U; cbn; tauto.
      * unfold depTag in Et. rewrite Et. reflexivity.
    + rewrite Fl, Cd. replace (flagSet (summary s) t) with false; [reflexivity|]. unfold flagSet. destruct t; try reflexivity; exfalso; apply U; cbn; tauto.
  - intros t U. rewrite !Un. replace (isAny (trait_eqb t) [TFlow; TAnti; TOutput]) with false by (clear -U; cbn in U; decompose [or] U; subst; try contradiction; reflexivity).
    cbn [andb]. rewrite Fl, (class_no_unit _ _ _ Gs C U), orb_false_r, (Fs t U), (F t U).
    replace (flagSet (cTrait cInit) t) with false by (clear -U; cbn in U; decompose [or] U; subst; try contradiction; vm_compute; reflexivity). cbn [orb].
    rewrite <- !andb_assoc. f_equal. unfold s. rewrite f_explicit, f_promoted, f_redundant, f_noredundant, f_direct, f_indirect.
    cbn [cExplicit cNoPromoted cRedundant cNoRedundant cDirect cIndirect cInit orb].
    clear -U. cbn in U; decompose [or] U; subst; try contradiction; cbn [trait_eqb andb nodeFlag]; rewrite ?andb_false_r, ?andb_true_r, ?negb_involutive; reflexivity.
Qed.

Lemma safe_quiet d k : wellFormed d -> safe d = true -> poss d k = false /\ anyDep d = false.
Proof.
  intros W H. unfold poss. destruct (anyDep d) eqn:A; [destruct (dep_alone d W A) as (Q & _); congruence|]. rewrite H. auto.
Qed.
Lemma noaccess_quiet d : wellFormed d -> d TNoAccess = true -> safe d = true /\ anyDep d = false /\ hasSpuriousDep d = false /\ forall k, poss d k = false /\ d (tagOf k) = false.
Proof.
  intros W H. destruct (never_alone d W (or_introl H)) as [A B]. assert (Sd : safe d = true) by (unfold safe; rewrite H; reflexivity).
  split; [exact Sd|]. split; [exact (proj2 (safe_quiet d KFlow W Sd))|]. split; [exact A|]. intro k. split; [exact (proj1 (safe_quiet d k W Sd))|exact (B k)].
Qed.
Lemma depTag_kind t : depTag t = true -> exists k, t = tagOf k.
Proof. destruct t; intro H; try discriminate H; [exists KFlow|exists KAnti|exists KOutput]; reflexivity. Qed.
Lemma kind_depTag k : depTag (tagOf k) = true /\ ~ In (tagOf k) unitTraits.
Proof. split; [destruct k; reflexivity|destruct k; nu]. Qed.
(** Dependences of a node with several locations. *)
Lemma node_deps ig ms R : (forall m, In m ms -> wellFormed (mDescr m)) ->
  finishNode (fold_left (step ig ms) ms cInit) = Some R ->
  let K := filter (keep ig ms) ms in
  forall k, (existsb (fun m => poss (mDescr m) k) K = true -> poss R k = true) /\
   ((forall m t, In m K -> In t privates -> has m t = true -> has m TShared = false) -> poss R k = true -> existsb (fun m => poss (mDescr m) k) K = true).
Proof.
  intros W E K k. destruct (node_spec ig ms W) as (R' & E' & Cl & _). rewrite E in E'. injection E' as <-. fold K in Cl.
  assert (WK : forall m, In m K -> wellFormed (mDescr m)) by (intros m Im; apply W; apply filter_In in Im; tauto).
  destruct (meet_spec K WK NoAccess) as (M1 & M2 & M3 & M4 & M5); [cbn; tauto|].
  set (c := meet K NoAccess) in *. set (n := length (filter accessed K)) in *.
  change (hasSharedJoin NoAccess) with true in M2. change (N.eqb NoAccess NoAccess) with true in M3. change (ro NoAccess) with true in M4. cbn [andb] in M2, M3, M4.
  set (sp := existsb (fun m => hasSpuriousDep (mDescr m)) K) in *.
  assert (Rd : forall q, R (tagOf q) = if negb sp then existsb (fun m => has m (tagOf q)) K else descrOf (fin n c) (tagOf q)).
  { intro q. destruct (kind_depTag q) as [A B]. rewrite (Cl _ B), A. reflexivity. }
  assert (Rs : forall t, In t [TNoAccess; TReadonly; TShared] -> R t = descrOf (fin n c) t).
  { intros t It. rewrite Cl; [|cbn in It; destruct It as [<-|[<-|[<-|[]]]]; nu]. cbn in It; destruct It as [<-|[<-|[<-|[]]]]; reflexivity. }
  assert (Rsafe : safe R = safe (descrOf (fin n c))) by (unfold safe; rewrite !Rs by (cbn; tauto); reflexivity).
  (* all relevant locations do not cause dependences *)
  assert (Quiet : hasSharedJoin c = true -> forall m q, In m K -> poss (mDescr m) q = false /\ has m (tagOf q) = false).
  { intros Hs m q Im. rewrite M2 in Hs. rewrite forallb_forall in Hs. destruct (safe_quiet _ q (WK m Im) (Hs m Im)) as [A B]. split; [exact A|].
    unfold has. destruct (mDescr m (tagOf q)) eqn:Q; [|reflexivity]. rewrite (tag_any _ q Q) in B. discriminate B. }
  assert (NoK : (forall m q, In m K -> poss (mDescr m) q = false /\ has m (tagOf q) = false) -> safe (descrOf (fin n c)) = true -> (forall q, descrOf (fin n c) (tagOf q) = false) ->
    existsb (fun m => poss (mDescr m) k) K = false /\ poss R k = false).
  { intros Q Sf Dq. assert (Z : forall f : mem -> bool, (forall m, In m K -> f m = false) -> existsb f K = false).
    { intros f Hf. destruct (existsb f K) eqn:Ef; [|reflexivity]. apply existsb_exists in Ef as (m & Im & Fm). rewrite (Hf m Im) in Fm. discriminate Fm. }
    split; [apply Z; intros m Im; exact (proj1 (Q m k Im))|]. unfold poss.
    assert (Ra : anyDep R = false).
    { destruct (anyDep R) eqn:Ra; [|reflexivity]. destruct (any_tag R Ra) as [q Hq]. rewrite Rd in Hq. destruct (negb sp); [|rewrite Dq in Hq; discriminate Hq].
      rewrite (Z (fun m => has m (tagOf q))) in Hq; [discriminate Hq|]. intros m Im. exact (proj2 (Q m q Im)). }
    rewrite Ra, Rsafe, Sf. reflexivity. }
  unfold fin in *. destruct (Nat.ltb_spec 1 n) as [Hn|Hn].
  - destruct (N.eqb_spec c NoAccess) as [Ec|_].
    { destruct (NoK (Quiet ltac:(rewrite Ec; reflexivity)) eq_refl (fun q => ltac:(destruct q; reflexivity))) as [A B]. rewrite A, B. split; [discriminate|intros _; discriminate]. }
    destruct (N.eqb_spec c Readonly) as [Ec|_].
    { destruct (NoK (Quiet ltac:(rewrite Ec; reflexivity)) eq_refl (fun q => ltac:(destruct q; reflexivity))) as [A B]. rewrite A, B. split; [discriminate|intros _; discriminate]. }
    destruct (hasSharedJoin c) eqn:Hs.
    { destruct (NoK (Quiet eq_refl) eq_refl (fun q => ltac:(destruct q; reflexivity))) as [A B]. rewrite A, B. split; [discriminate|intros _; discriminate]. }
    destruct sp eqn:Sp; cbn [negb] in Rd.
    + assert (P : poss R k = true).
      { unfold poss. assert (Rk : forall q, R (tagOf q) = true) by (intro q; rewrite Rd; destruct q; reflexivity). rewrite (tag_any R k (Rk k)). exact (Rk k). }
      split; [intros _; exact P|]. intros Pv _. unfold sp in Sp. apply existsb_exists in Sp as (m & Im & Hm). apply existsb_exists. exists m. split; [exact Im|].
      pose proof (WK m Im) as Wm. unfold poss. destruct (anyDep (mDescr m)) eqn:Ad; [destruct (dep_alone _ Wm Ad) as (_ & Q & _); congruence|].
      destruct (safe (mDescr m)) eqn:Sf; [exfalso|reflexivity]. unfold hasSpuriousDep in Hm. rewrite hasNoDep_safe, Sf in Hm. cbn [negb andb orb] in Hm.
      apply existsb_exists in Hm as (t & It & Ht). assert (It' : In t privates) by (cbn in It |- *; tauto).
      pose proof (Pv m t Im It' Ht) as Q. unfold has in Q. unfold safe in Sf. rewrite Q, orb_false_r in Sf. apply orb_true_iff in Sf.
      destruct (never_alone _ Wm Sf) as [A _]. unfold hasSpuriousDep in A. apply orb_false_iff in A as [_ A]. unfold isAny in A.
      assert (X : existsb (mDescr m) [TPrivate; TLastPrivate; TFirstPrivate; TSecondToLastPrivate; TDynamicPrivate] = true) by (apply existsb_exists; exists t; auto). congruence.
    + cbn [negb] in Rd. assert (Nsp : forall m, In m K -> hasSpuriousDep (mDescr m) = false).
      { intros m Im. destruct (hasSpuriousDep (mDescr m)) eqn:Q; [|reflexivity]. assert (X : sp = true) by (unfold sp; apply existsb_exists; exists m; auto). congruence. }
      assert (Ad : anyDep R = true).
      { symmetry in M2. assert (exists m, In m K /\ safe (mDescr m) = false) as (m & Im & Sm).
        { destruct (existsb (fun m => negb (safe (mDescr m))) K) eqn:Ef.
          - apply existsb_exists in Ef as (m & Im & Q). exists m. split; [exact Im|]. destruct (safe (mDescr m)); [discriminate Q|reflexivity].
          - exfalso. assert (X : forallb (fun m => safe (mDescr m)) K = true).
            { apply forallb_forall. intros m Im. destruct (safe (mDescr m)) eqn:Q; [reflexivity|]. exfalso.
              assert (Y : existsb (fun m => negb (safe (mDescr m))) K = true) by (apply existsb_exists; exists m; rewrite Q; auto). congruence. }
            congruence. }
        pose proof (Nsp m Im) as Q. destruct (anyDep (mDescr m)) eqn:Am; [|rewrite (spurious_dep _ (eq_trans (hasNoDep_safe _) Sm) Am) in Q; discriminate Q].
        destruct (any_tag _ Am) as [q Hq]. apply (tag_any R q). rewrite Rd. apply existsb_exists. exists m. auto. }
      assert (Pe : poss R k = existsb (fun m => poss (mDescr m) k) K).
      { unfold poss at 1. rewrite Ad, Rd. clear -Nsp WK. induction K as [|m K IH]; [reflexivity|]. cbn [existsb]. rewrite IH by (intros; first [apply Nsp|apply WK]; right; assumption). f_equal.
        unfold poss, has. destruct (anyDep (mDescr m)) eqn:Am; [reflexivity|]. pose proof (Nsp m (or_introl eq_refl)) as Q.
        destruct (safe (mDescr m)) eqn:Sm; [|rewrite (spurious_dep _ (eq_trans (hasNoDep_safe _) Sm) Am) in Q; discriminate Q].
        destruct (mDescr m (tagOf k)) eqn:T; [|reflexivity]. rewrite (tag_any _ k T) in Am. discriminate Am. }
      rewrite Pe. auto.
  - destruct (Nat.eq_dec n 0) as [N0|N0].
    + assert (Al : forall m, In m K -> has m TNoAccess = true).
      { intros m Im. destruct (has m TNoAccess) eqn:Q; [reflexivity|]. exfalso. assert (I1 : In m (filter accessed K)) by (apply filter_In; split; [exact Im|unfold accessed; rewrite Q; reflexivity]).
        unfold n in N0. destruct (filter accessed K); [destruct I1|discriminate N0]. }
      assert (Ec : c = NoAccess) by (apply M5; apply forallb_forall; exact Al).
      destruct (NoK (Quiet ltac:(rewrite Ec; reflexivity))) as [A B]; [rewrite Ec; reflexivity|intro q; rewrite Ec; destruct q; reflexivity|]. rewrite A, B. split; [discriminate|intros _; discriminate].
    + destruct (meet_one K WK) as (m & Im & Nm & Oth & Mc & Ex); [unfold n in *; lia|]. fold c in Mc. pose proof (WK m Im) as Wm.
      destruct (class_one (mDescr m) Wm) as (_ & C2 & C3 & C4).
      assert (Pk : existsb (fun m => poss (mDescr m) k) K = poss (mDescr m) k).
      { apply (Ex (fun m => poss (mDescr m) k)). intros m' Im' Nm'. destruct (noaccess_quiet _ (WK m' Im') Nm') as (_ & _ & _ & Q). exact (proj1 (Q k)). }
      assert (Spe : sp = hasSpuriousDep (mDescr m)).
      { unfold sp. apply (Ex (fun m => hasSpuriousDep (mDescr m))). intros m' Im' Nm'. destruct (noaccess_quiet _ (WK m' Im') Nm') as (_ & _ & Q & _). exact Q. }
      assert (De : forall q, existsb (fun m => has m (tagOf q)) K = mDescr m (tagOf q)).
      { intro q. apply (Ex (fun m => has m (tagOf q))). intros m' Im' Nm'. destruct (noaccess_quiet _ (WK m' Im') Nm') as (_ & _ & _ & Q). exact (proj2 (Q q)). }
      rewrite Pk. assert (X : poss R k = poss (mDescr m) k); [|rewrite X; auto].
      destruct (hasSpuriousDep (mDescr m)) eqn:Sm; rewrite Spe in Rd; cbn [negb] in Rd.
      * rewrite <- (C2 eq_refl k), <- Mc. unfold poss. rewrite Rsafe, Rd. replace (anyDep R) with (anyDep (descrOf c)); [reflexivity|].
        unfold anyDep. rewrite (Rd KFlow : R TFlow = _), (Rd KAnti : R TAnti = _), (Rd KOutput : R TOutput = _). reflexivity.
      * assert (Ae : anyDep R = anyDep (mDescr m)).
        { unfold anyDep. rewrite (Rd KFlow : R TFlow = _), (Rd KAnti : R TAnti = _), (Rd KOutput : R TOutput = _), !De. reflexivity. }
        unfold poss. rewrite Ae, Rd, De, Rsafe, Mc. destruct (anyDep (mDescr m)) eqn:Am; [reflexivity|]. rewrite (C3 eq_refl eq_refl). reflexivity.
Qed.

Lemma fin_class n c : In c closed ->
  (descrOf (fin n c) TNoAccess = true -> c = NoAccess) /\ (descrOf (fin n c) TReadonly = true -> ro c = true) /\
  (descrOf (fin n c) TShared = true -> hasSharedJoin c = true) /\
  (forall t, In t (TReduction :: TInduction :: privates) -> descrOf (fin n c) t = true -> n <= 1 /\ c <> NoAccess).
Proof.
  intro Ic. unfold fin.
  assert (H : forallb (fun c => implb (descrOf c TNoAccess) (N.eqb c NoAccess) && implb (descrOf c TReadonly) (ro c) && implb (descrOf c TShared) (hasSharedJoin c)) closed = true) by (vm_compute; reflexivity).
  rewrite forallb_forall in H. specialize (H c Ic). rewrite !andb_true_iff in H. destruct H as ((A & B) & C).
  destruct (Nat.ltb_spec 1 n) as [L|L].
  - destruct (N.eqb_spec c NoAccess) as [->|Nc].
    { split; [reflexivity|]. split; [discriminate|]. split; [discriminate|]. intros t It Q. exfalso. unfold privates in It. cbn in It. decompose [or] It; subst; try discriminate Q; contradiction. }
    destruct (N.eqb_spec c Readonly) as [->|Nr].
    { split; [discriminate|]. split; [reflexivity|]. split; [discriminate|]. intros t It Q. exfalso. unfold privates in It. cbn in It. decompose [or] It; subst; try discriminate Q; contradiction. }
    destruct (hasSharedJoin c).
    + split; [discriminate|]. split; [discriminate|]. split; [reflexivity|]. intros t It Q. exfalso. unfold privates in It. cbn in It. decompose [or] It; subst; try discriminate Q; contradiction.
    + split; [discriminate|]. split; [discriminate|]. split; [discriminate|]. intros t It Q. exfalso. unfold privates in It. cbn in It. decompose [or] It; subst; try discriminate Q; contradiction.
  - split; [intro Q; rewrite Q in A; apply N.eqb_eq; exact A|]. split; [intro Q; rewrite Q in B; exact B|]. split; [intro Q; rewrite Q in C; exact C|].
    intros t It Q. split; [exact L|]. intros ->. unfold privates in It. cbn in It. decompose [or] It; subst; try discriminate Q; contradiction.
Qed.
Lemma node_class ig ms R : (forall m, In m ms -> wellFormed (mDescr m)) ->
  finishNode (fold_left (step ig ms) ms cInit) = Some R ->
  let K := filter (keep ig ms) ms in
  (R TNoAccess = true -> forall m, In m K -> has m TNoAccess = true) /\
  (R TReadonly = true -> forall m, In m K -> has m TNoAccess = true \/ has m TReadonly = true) /\
  (R TShared = true -> forall m, In m K -> safe (mDescr m) = true) /\
  (forall t, In t (TReduction :: TInduction :: privates) -> R t = true ->
     exists m, In m K /\ has m t = true /\ forall m', In m' K -> m' = m \/ has m' TNoAccess = true).
Proof.
  intros W E K. destruct (node_spec ig ms W) as (R' & E' & Cl & _). rewrite E in E'. injection E' as <-. fold K in Cl.
  assert (WK : forall m, In m K -> wellFormed (mDescr m)) by (intros m Im; apply W; apply filter_In in Im; tauto).
  destruct (meet_spec K WK NoAccess) as (M1 & M2 & M3 & M4 & M5); [cbn; tauto|].
  set (c := meet K NoAccess) in *. set (n := length (filter accessed K)) in *.
  change (hasSharedJoin NoAccess) with true in M2. change (N.eqb NoAccess NoAccess) with true in M3. change (ro NoAccess) with true in M4. cbn [andb] in M2, M3, M4.
  destruct (fin_class n c M1) as (F1 & F2 & F3 & F4).
  assert (Rc : forall t, In t classTraits -> R t = descrOf (fin n c) t).
  { intros t It. rewrite Cl; [|unfold classTraits in It; cbn in It; decompose [or] It; subst; try contradiction; nu].
    replace (depTag t) with false; [reflexivity|]. unfold classTraits in It; cbn in It; decompose [or] It; subst; try contradiction; reflexivity. }
  split; [|split; [|split]].
  - intros Q m Im. rewrite Rc in Q by (cbn; tauto). specialize (F1 Q). rewrite F1, N.eqb_refl in M3. symmetry in M3. rewrite forallb_forall in M3. exact (M3 m Im).
  - intros Q m Im. rewrite Rc in Q by (cbn; tauto). rewrite (F2 Q) in M4. symmetry in M4. rewrite forallb_forall in M4. apply orb_true_iff. exact (M4 m Im).
  - intros Q m Im. rewrite Rc in Q by (cbn; tauto). rewrite (F3 Q) in M2. symmetry in M2. rewrite forallb_forall in M2. exact (M2 m Im).
  - intros t It Q. assert (Jt : In t classTraits) by (unfold privates in It; cbn in It |- *; tauto). rewrite (Rc t Jt) in Q. destruct (F4 t It Q) as [Ln Nc].
    assert (N1 : n = 1).
    { destruct n as [|[|n']] eqn:En; [exfalso|reflexivity|lia]. apply Nc. apply M5. apply forallb_forall. intros m Im. destruct (has m TNoAccess) eqn:Nm; [reflexivity|]. exfalso.
      assert (I1 : In m (filter accessed K)) by (apply filter_In; split; [exact Im|unfold accessed; rewrite Nm; reflexivity]). unfold n in En. destruct (filter accessed K); [destruct I1|discriminate En]. }
    destruct (meet_one K WK N1) as (m & Im & Nm & Oth & Mc & _). fold c in Mc. exists m. split; [exact Im|]. split; [|exact Oth].
    destruct (class_one (mDescr m) (WK m Im)) as (C1 & _). apply (C1 t Jt). rewrite <- Mc. rewrite N1 in Q. exact Q.
Qed.

(** * Relevant locations *)
Lemma findMem_spec ms i c : NoDup (map mId ms) -> (findMem ms i = Some c <-> In c ms /\ mId c = i).
Proof.
  unfold findMem. induction ms as [|m ms IH]; intro N; cbn [find]; [split; [discriminate|intros [[] _]]|].
  cbn [map] in N. inversion N as [|? ? Nm N']; subst. destruct (Nat.eqb_spec (mId m) i) as [E|E].
  - split; [intro Q; injection Q as <-; split; [left; reflexivity|exact E]|]. intros [[->|Ic] Ec]; [reflexivity|]. exfalso. apply Nm. apply in_map_iff. exists c. split; [congruence|exact Ic].
  - rewrite (IH N'). split; [intros [A B]; split; [right; exact A|exact B]|]. intros [[->|Ic] Ec]; [congruence|auto].
Qed.
Lemma covered_spec ig ms m : NoDup (map mId ms) ->
  has m TIndirectAccess && negb (has m TDirectAccess) && isCovered ig ms m = true <-> covered ig ms m.
Proof.
  intro N. unfold covered, isCovered. rewrite !andb_true_iff, negb_true_iff, forallb_forall. split.
  - intros ((A & B) & C). split; [exact A|]. split; [exact B|]. intros i Ii. specialize (C i Ii). destruct (findMem ms i) as [c|] eqn:F; [|discriminate C].
    apply (findMem_spec ms i c N) in F as [F1 F2]. exists c. split; [exact F1|]. split; [exact F2|]. intros [Q1 Q2]. rewrite Q1, Q2 in C. discriminate C.
  - intros (A & B & C). split; [auto|]. intros i Ii. destruct (C i Ii) as (c & Ic & Ec & Nc). rewrite (proj2 (findMem_spec ms i c N) (conj Ic Ec)).
    destruct ig, (has c TRedundant) eqn:Q; cbn; try reflexivity. exfalso. apply Nc. split; [reflexivity|exact Q].
Qed.
Lemma keep_relevant ig m1 m2 ms0 : let ms := m1 :: m2 :: ms0 in NoDup (map mId ms) -> forall m, In m (filter (keep ig ms) ms) <-> relevant ig ms m.
Proof.
  intros ms N m. rewrite filter_In. unfold relevant, keep. rewrite andb_true_iff, !negb_true_iff. 
  assert (O : In m ms -> exists m', m' <> m /\ In m' ms).
  { intro Im. cbn [map ms] in N. inversion N as [|? ? N1 N2]; subst. assert (D : m1 <> m2) by (intros ->; apply N1; left; reflexivity).
    destruct Im as [<-|Im]; [exists m2; split; [congruence|right; left; reflexivity]|]. exists m1. split; [|left; reflexivity].
    intros ->. apply N1. destruct Im as [<-|Im]; [left; reflexivity|right; apply in_map; exact Im]. }
  pose proof (covered_spec ig ms m N) as Cs. split.
  - intros (Im & A & B). split; [exact Im|]. split; [intros [Q1 Q2]; rewrite Q1, Q2 in A; discriminate A|]. intros _ Q. apply Cs in Q. congruence.
  - intros (Im & A & B). split; [exact Im|]. split.
    + destruct (has m TRedundant) eqn:Q1, ig eqn:Q2; try reflexivity. exfalso. apply A. split; [reflexivity|exact Q1].
    + destruct (has m TIndirectAccess && negb (has m TDirectAccess) && isCovered ig ms m) eqn:Q; [|reflexivity]. exfalso. exact (B (O Im) (proj1 Cs eq_refl)).
Qed.
Lemma unset_at b u (d : descr) t : unsetIf b u d t = d t && negb (b && trait_eqb t u).
Proof. unfold unsetIf, dUnset. destruct b; cbn [andb negb]; [apply andb_comm|symmetry; apply andb_true_r]. Qed.
Lemma single_at ig m t : single ig m t =
  (if ig && has m TRedundant
   then negb (trait_eqb t TUseAfterLoop) && (negb (trait_eqb t TAddressAccess) && (negb (trait_eqb t THeaderAccess) && 
     (if existsb (trait_eqb t) unitTraits then has m t && negb (negb (has m TExplicitAccess && negb (has m TNoAccess) && mOwn m) && trait_eqb t TExplicitAccess) &&
   negb (negb (has m TRedundant && mOwn m) && trait_eqb t TRedundant) && negb (negb (has m TNoRedundant && mOwn m) && trait_eqb t TNoRedundant) else trait_eqb t TNoAccess)))
   else has m t && negb (negb (has m TExplicitAccess && negb (has m TNoAccess) && mOwn m) && trait_eqb t TExplicitAccess) &&
   negb (negb (has m TRedundant && mOwn m) && trait_eqb t TRedundant) && negb (negb (has m TNoRedundant && mOwn m) && trait_eqb t TNoRedundant)) &&
  negb (negb (has m TNoPromotedScalar && mOwn m) && trait_eqb t TNoPromotedScalar) && negb (negb (has m TDirectAccess && mOwn m) && trait_eqb t TDirectAccess) &&
  negb (negb (has m TIndirectAccess && mOwn m) && trait_eqb t TIndirectAccess).
Proof.
  unfold single. cbv zeta. rewrite !unset_at. do 3 f_equal. destruct (ig && has m TRedundant).
  - unfold dUnset, setNoAccess. rewrite !unset_at. reflexivity.
  - rewrite !unset_at. reflexivity.
Qed.
Lemma single_class ig m t : ~ In t unitTraits -> single ig m t = if ig && has m TRedundant then trait_eqb t TNoAccess else has m t.
Proof.
  intro U. rewrite single_at. destruct t; try (exfalso; apply U; cbn; tauto); cbn [trait_eqb negb andb existsb unitTraits orb]; rewrite !andb_false_r; cbn [negb]; rewrite !andb_true_r; reflexivity.
Qed.
Lemma single_unit ig m t : In t unitTraits -> single ig m t = has m t &&
  match t with
  | TExplicitAccess => negb (has m TNoAccess) && mOwn m
  | TRedundant | TNoRedundant | TNoPromotedScalar | TDirectAccess | TIndirectAccess => mOwn m
  | THeaderAccess | TAddressAccess | TUseAfterLoop => negb (ig && has m TRedundant)
  | _ => true
  end.
Proof.
  intro U. rewrite single_at. destruct t; try (exfalso; clear -U; cbn in U; decompose [or] U; try discriminate; contradiction);
    cbn [trait_eqb negb andb existsb unitTraits orb]; rewrite ?andb_false_r; cbn [negb]; rewrite ?andb_true_r, ?negb_involutive; 
    destruct (ig && has m TRedundant); cbn [negb];
    rewrite ?andb_true_r, ?andb_false_r; try reflexivity;
    match goal with |- has m ?t && _ = _ => destruct (has m t) end; reflexivity.
Qed.

(** * Claims *)
Lemma consistent_all ms : (forall m, In m ms -> wellFormed (mDescr m) /\ (has m TRedundant = true <-> has m TNoRedundant = false)) -> forallb consistent ms = true.
Proof.
  intro H. apply forallb_forall. intros m Im. destruct (H m Im) as [_ Q]. unfold consistent. destruct (has m TRedundant), (has m TNoRedundant); try reflexivity.
  - discriminate (proj1 Q eq_refl).
  - discriminate (proj2 Q eq_refl).
Qed.
Lemma total_true : C89_total_claim.
Proof.
  intros ig ms (Ne & Nd & H). unfold combineTraits. rewrite (consistent_all ms H). cbn [negb].
  destruct ms as [|m1 [|m2 ms]]; [congruence|eexists; reflexivity|].
  destruct (node_spec ig (m1 :: m2 :: ms) (fun m Im => proj1 (H m Im))) as (R & E & _). exists R. exact E.
Qed.
Lemma combine_cases ig ms R : locations ms -> combineTraits ig ms = Some R ->
  (exists m, ms = [m] /\ R = single ig m) \/
  (finishNode (fold_left (step ig ms) ms cInit) = Some R /\ forall m, In m (filter (keep ig ms) ms) <-> relevant ig ms m).
Proof.
  intros (Ne & Nd & H) E. unfold combineTraits in E. rewrite (consistent_all ms H) in E. cbn [negb] in E.
  destruct ms as [|m1 [|m2 ms]]; [congruence| |].
  - left. exists m1. split; [reflexivity|]. injection E as <-. reflexivity.
  - right. split; [exact E|]. exact (keep_relevant ig m1 m2 ms Nd).
Qed.
Lemma one_relevant ig m : ~ ignored ig m -> relevant ig [m] m.
Proof. intro N. split; [left; reflexivity|]. split; [exact N|]. intros (m' & Q & [->|[]]). congruence. Qed.
Lemma not_ignored ig m : ~ ignored ig m <-> ig && has m TRedundant = false.
Proof. unfold ignored. destruct ig, (has m TRedundant); cbn; split; intro H; try reflexivity; try tauto; try discriminate H; intros [A B]; discriminate. Qed.
Lemma single_poss ig m k : poss (single ig m) k = negb (ig && has m TRedundant) && poss (mDescr m) k.
Proof.
  unfold poss, anyDep, safe. rewrite !single_class by (try (destruct k); nu). destruct (ig && has m TRedundant); [|reflexivity]. cbn. reflexivity.
Qed.
Lemma covers_true : C89_cover_claim true.
Proof.
  intros ig ms R m k L E P G Im Ni Mm. specialize (G eq_refl). destruct (combine_cases ig ms R L E) as [(m0 & -> & ->)|[F K]].
  - destruct Im as [<-|[]]. apply may_poss. rewrite single_poss. apply not_ignored in Ni. rewrite Ni. apply may_poss; exact Mm.
  - destruct L as (Ne & Nd & H). pose proof (fun m Im => proj1 (H m Im)) as W. destruct (node_deps ig ms R W F k) as [A _].
    apply may_poss. apply A. apply existsb_exists.
    destruct (has m TIndirectAccess && negb (has m TDirectAccess) && isCovered ig ms m) eqn:Q.
    + apply (covered_spec ig ms m Nd) in Q as (Q1 & Q2 & Q3). destruct (P m k Im Q1 Q2 Mm) as (i & Ii & Hi). destruct (Q3 i Ii) as (c & Ic & Ec & Nc).
      exists c. split; [|apply may_poss; exact (Hi c Ic Ec)]. apply filter_In. split; [exact Ic|]. unfold keep.
      rewrite (G m c Im Ic) by (rewrite Ec; exact Ii). cbn [negb]. rewrite andb_false_r. cbn [andb negb]. rewrite andb_true_r, andb_comm. apply not_ignored in Nc. rewrite Nc. reflexivity.
    + exists m. split; [|apply may_poss; exact Mm]. apply filter_In. split; [exact Im|]. unfold keep. rewrite Q. cbn [negb]. rewrite andb_true_r, andb_comm.
      apply not_ignored in Ni. rewrite Ni. reflexivity.
Qed.
Lemma precise_true : C89_precise_claim true.
Proof.
  intros ig ms R k L E G Mr. specialize (G eq_refl). destruct (combine_cases ig ms R L E) as [(m0 & -> & ->)|[F K]].
  - apply may_poss in Mr. rewrite single_poss in Mr. apply andb_true_iff in Mr as [A B]. exists m0. split; [apply one_relevant; apply not_ignored; apply negb_true_iff; exact A|apply may_poss; exact B].
  - destruct L as (Ne & Nd & H). destruct (node_deps ig ms R (fun m Im => proj1 (H m Im)) F k) as [_ B]. apply may_poss in Mr.
    assert (X : existsb (fun m => poss (mDescr m) k) (filter (keep ig ms) ms) = true).
    { apply B; [|exact Mr]. intros m t Im. apply (G m t). apply filter_In in Im; tauto. }
    apply existsb_exists in X as (m & Im & Pm). exists m. split; [apply K; exact Im|apply may_poss; exact Pm].
Qed.
Lemma class_true : C89_class_claim.
Proof.
  intros ig ms R L E. destruct (combine_cases ig ms R L E) as [(m0 & -> & ->)|[F K]].
  - assert (Rel : forall m, relevant ig [m0] m -> m = m0 /\ ig && has m0 TRedundant = false).
    { intros m ([->|[]] & Ni & _). split; [reflexivity|]. apply not_ignored; exact Ni. }
    split; [|split; [|split]].
    + intros Q m Rm. destruct (Rel m Rm) as [-> I0]. rewrite single_class, I0 in Q by nu. exact Q.
    + intros Q m Rm. destruct (Rel m Rm) as [-> I0]. rewrite single_class, I0 in Q by nu. auto.
    + intros Q m Rm. destruct (Rel m Rm) as [-> I0]. rewrite single_class, I0 in Q by nu. auto.
    + intros t It Q. rewrite single_class in Q by (unfold privates in It; cbn in It; decompose [or] It; subst; try contradiction; nu).
      destruct (ig && has m0 TRedundant) eqn:I0; [exfalso; unfold privates in It; cbn in It; decompose [or] It; subst; try discriminate Q; contradiction|].
      exists m0. split; [apply one_relevant; apply not_ignored; exact I0|]. split; [exact Q|]. intros m' Rm. left. destruct (Rel m' Rm) as [-> _]. reflexivity.
  - destruct L as (Ne & Nd & H). destruct (node_class ig ms R (fun m Im => proj1 (H m Im)) F) as (A & B & C & D). split; [|split; [|split]].
    + intros Q m Rm. apply (A Q). apply K; exact Rm.
    + intros Q m Rm. apply (B Q). apply K; exact Rm.
    + intros Q m Rm. apply K in Rm. specialize (C Q m Rm). unfold safe in C. unfold has. destruct (mDescr m TNoAccess), (mDescr m TReadonly), (mDescr m TShared); auto.
    + intros t It Q. destruct (D t It Q) as (m & Im & Hm & O). exists m. split; [apply K; exact Im|]. split; [exact Hm|].
      intros m' Rm. apply K in Rm. destruct (O m' Rm) as [->|Z]; auto.
Qed.
Lemma read_true : C89_read_claim.
Proof.
  intros ig ms R L E. destruct (combine_cases ig ms R L E) as [(m0 & -> & ->)|[F K]].
  - rewrite !single_class by nu. destruct (ig && has m0 TRedundant) eqn:I0; [split; [reflexivity|left; reflexivity]|].
    pose proof (one_relevant ig m0 (proj2 (not_ignored ig m0) I0)) as Rl. split; intro H; exact (H m0 Rl).
  - destruct L as (Ne & Nd & H). pose proof (fun m Im => proj1 (H m Im)) as W.
    destruct (node_spec ig ms W) as (R' & E' & Cl & _). rewrite F in E'. injection E' as <-. set (K0 := filter (keep ig ms) ms) in *.
    assert (WK : forall m, In m K0 -> wellFormed (mDescr m)) by (intros m Im; apply W; apply filter_In in Im; tauto).
    destruct (meet_spec K0 WK NoAccess) as (_ & _ & M3 & M4 & _); [cbn; tauto|].
    change (N.eqb NoAccess NoAccess) with true in M3. change (ro NoAccess) with true in M4. cbn [andb] in M3, M4. rewrite !Cl by nu. cbn [depTag isAny existsb trait_eqb orb andb].
    split; intro Q.
    + assert (X : forallb (fun m => has m TNoAccess) K0 = true) by (apply forallb_forall; intros m Im; apply Q; apply K; exact Im).
      rewrite X in M3. apply N.eqb_eq in M3. rewrite M3. unfold fin. destruct (Nat.ltb _ _); reflexivity.
    + assert (X : forallb (fun m => has m TNoAccess || has m TReadonly) K0 = true) by (apply forallb_forall; intros m Im; apply orb_true_iff; apply Q; apply K; exact Im).
      rewrite X in M4. unfold ro in M4. apply orb_true_iff in M4 as [M4|M4]; apply N.eqb_eq in M4; rewrite M4; unfold fin; destruct (Nat.ltb _ _); [left|left|right|right]; reflexivity.
Qed.
Lemma node_units t : In t nodeFlags -> In t unitTraits.
Proof. unfold nodeFlags. cbn. tauto. Qed.
Lemma flags_true : C89_flags_claim.
Proof.
  intros ig ms R t L E It Q. pose proof (node_units t It) as U. destruct (combine_cases ig ms R L E) as [(m0 & -> & ->)|[F _]].
  - rewrite (single_unit ig m0 t U) in Q. apply andb_true_iff in Q as [Q1 Q2]. exists m0. split; [left; reflexivity|].
    unfold nodeFlags in It. cbn in It. decompose [or] It; subst; try contradiction;
      try (split; [exact Q2|]; split; [exact Q1|discriminate]).
    apply andb_true_iff in Q2 as [Q2 Q3]. split; [exact Q3|]. split; [exact Q1|]. intros _. apply negb_true_iff; exact Q2.
  - destruct L as (Ne & Nd & H). destruct (node_spec ig ms (fun m Im => proj1 (H m Im))) as (R' & E' & _ & Un). rewrite F in E'. injection E' as <-.
    rewrite (Un t U) in Q. apply andb_true_iff in Q as [_ Q]. unfold nodeFlags in It. cbn in It. decompose [or] It; subst; try contradiction; cbn [nodeFlag] in Q;
      apply existsb_exists in Q as (m & Im & Hm); exists m; split; try exact Im; apply andb_true_iff in Hm as [H1 H2]; split; try exact H2.
    + apply andb_true_iff in H1 as [H0 H1]. split; [exact H0|]. intros _. apply negb_true_iff; exact H1.
    + split; [exact H1|discriminate].
    + split; [|discriminate]. apply negb_true_iff in H1. destruct (H m Im) as [_ Q]. destruct (has m TNoRedundant); [reflexivity|]. rewrite (proj2 Q eq_refl) in H1. discriminate H1.
    + split; [exact H1|discriminate].
    + split; [exact H1|discriminate].
    + split; [exact H1|discriminate].
Qed.
Lemma kept_true : C89_kept_claim true.
Proof.
  intros ig ms R m t L E Im Ni Rl Hm Ht. specialize (Rl eq_refl).
  assert (U : In t unitTraits) by (destruct Ht as [(It & _)|It]; [exact (node_units t It)|cbn in It |- *; tauto]).
  destruct (combine_cases ig ms R L E) as [(m0 & -> & ->)|[F K]].
  - destruct Im as [<-|[]]. rewrite (single_unit ig m0 t U), Hm. cbn [andb]. apply not_ignored in Ni. rewrite Ni. destruct Ht as [(It & Ow & Ex)|It].
    + unfold nodeFlags in It. cbn in It. decompose [or] It; subst; try contradiction; try exact Ow. rewrite (Ex eq_refl), Ow. reflexivity.
    + cbn in It. decompose [or] It; subst; try contradiction; reflexivity.
  - apply K in Rl. destruct L as (Ne & Nd & H). destruct (node_spec ig ms (fun m Im => proj1 (H m Im))) as (R' & E' & _ & Un). rewrite F in E'. injection E' as <-.
    rewrite (Un t U). assert (X : existsb (fun m => has m t) (filter (keep ig ms) ms) = true) by (apply existsb_exists; exists m; auto). rewrite X. cbn [orb andb].
    destruct Ht as [(It & Ow & Ex)|It].
    + unfold nodeFlags in It. cbn in It. decompose [or] It; subst; try contradiction; cbn [nodeFlag]; apply existsb_exists; exists m; (split; [exact Im|]); rewrite ?Hm, ?Ow; try reflexivity.
      * rewrite (Ex eq_refl). reflexivity.
      * destruct (H m Im) as [_ Q]. destruct (has m TRedundant); [|reflexivity]. rewrite (proj1 Q eq_refl) in Hm. discriminate Hm.
    + cbn in It. decompose [or] It; subst; try contradiction; reflexivity.
Qed.

(** * Refutations *)
Definition of (ts : list trait) : descr := fun t => member t ts.
Lemma of_wf ts alt : In alt alternatives -> (forall t, In t ts -> In t unitTraits \/ In t alt) -> wellFormed (of ts).
Proof. intros Ia H. exists alt. split; [exact Ia|]. intros t Q. apply H. apply member_In. exact Q. Qed.
(** Two pointers are accessed through each other: both locations are skipped and the node is not accessed. *)
Definition cyc1 : mem := Mem 1 true (of [TNoRedundant; TIndirectAccess; TFlow; TAnti; TOutput]) [2].
Definition cyc2 : mem := Mem 2 true (of [TNoRedundant; TIndirectAccess; TFlow; TAnti; TOutput]) [1].
Lemma cyc_ok : locations [cyc1; cyc2].
Proof.
  assert (W : wellFormed (of [TNoRedundant; TIndirectAccess; TFlow; TAnti; TOutput])).
  { apply (of_wf _ [TFlow; TAnti; TOutput]); [cbn; tauto|]. intros t It. cbn in It |- *. tauto. }
  split; [discriminate|]. split; [repeat constructor; cbn; intuition discriminate|].
  intros m [<-|[<-|[]]]; (split; [exact W|split; intro Q; [discriminate Q|discriminate Q]]).
Qed.
Lemma cover_refuted : ~ C89_cover_claim false.
Proof.
  intro C. destruct (total_true false _ cyc_ok) as [R E].
  assert (M : may R KFlow).
  { apply (C false [cyc1; cyc2] R cyc1 KFlow cyc_ok E); [|discriminate|left; reflexivity|intros [Q _]; discriminate Q|apply may_poss; reflexivity].
    intros m k [<-|[<-|[]]] _ _ _; [exists 2|exists 1]; (split; [left; reflexivity|]); intros c [<-|[<-|[]]] _; apply may_poss; destruct k; reflexivity. }
  apply may_poss in M. vm_compute in E. injection E as <-. vm_compute in M. discriminate M.
Qed.
(** A private variable which can be shared is combined with a variable with a flow dependence. *)
Definition pr1 : mem := Mem 1 true (of [TNoRedundant; TDirectAccess; TPrivate; TShared]) [].
Definition pr2 : mem := Mem 2 true (of [TNoRedundant; TDirectAccess; TFlow]) [].
Lemma pr_ok : locations [pr1; pr2].
Proof.
  split; [discriminate|]. split; [repeat constructor; cbn; intuition discriminate|].
  intros m [<-|[<-|[]]]; (split; [|split; intro Q; discriminate Q]).
  - apply (of_wf _ [TPrivate; TShared]); [cbn; tauto|]. intros t It. cbn in It |- *. tauto.
  - apply (of_wf _ [TFlow; TAnti; TOutput]); [cbn; tauto|]. intros t It. cbn in It |- *. tauto.
Qed.
Lemma precise_refuted : ~ C89_precise_claim false.
Proof.
  intro C. destruct (total_true false _ pr_ok) as [R E].
  assert (M : may R KAnti).
  { apply may_poss. vm_compute in E. injection E as <-. vm_compute. reflexivity. }
  destruct (C false [pr1; pr2] R KAnti pr_ok E) as (m & ([<-|[<-|[]]] & _) & Q); [discriminate|exact M| |]; apply may_poss in Q; vm_compute in Q; discriminate Q.
Qed.
(** A flag of a location which is accessed through another one is lost. *)
Definition kp1 : mem := Mem 1 true (of [TNoRedundant; TIndirectAccess; TLock; TReadonly]) [2].
Definition kp2 : mem := Mem 2 true (of [TNoRedundant; TDirectAccess; TReadonly]) [].
Lemma kp_ok : locations [kp1; kp2].
Proof.
  split; [discriminate|]. split; [repeat constructor; cbn; intuition discriminate|].
  intros m [<-|[<-|[]]]; (split; [|split; intro Q; discriminate Q]);
    (apply (of_wf _ [TReadonly]); [cbn; tauto|]; intros t It; cbn in It |- *; tauto).
Qed.
Lemma kept_refuted : ~ C89_kept_claim false.
Proof.
  intro C. destruct (total_true false _ kp_ok) as [R E].
  assert (M : R TLock = true).
  { apply (C false [kp1; kp2] R kp1 TLock kp_ok E); [left; reflexivity|intros [Q _]; discriminate Q|discriminate|reflexivity|right; cbn; tauto]. }
  vm_compute in E. injection E as <-. vm_compute in M. discriminate M.
Qed.
