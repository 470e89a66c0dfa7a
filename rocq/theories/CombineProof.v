(** Proofs about combination of traits. *)
From Coq Require Import ZArith NArith Bool List Lia.
From Verif Require Import TraitModel TraitSpec Prop_Trait ClarifyModel CombineModel CombineSpec.
Import ListNotations.

(* names of traits of classes *)
Definition anyDep (d : descr) : bool := d TFlow || d TAnti || d TOutput.
Definition safe (d : descr) : bool := d TNoAccess || d TReadonly || d TShared.

Lemma classSet d : wellFormed d ->
  exists cs, In cs describable /\ forall x, ~ In x unitTraits -> d x = member x cs.
Proof.
  intros (alt & IA & WF). exists (filter d alt). split.
  - apply in_flat_map. exists alt. split; [exact IA|apply filter_subset].
  - intros x U. apply eq_iff_eq_true. rewrite member_In, filter_In. split.
    + intro D. destruct (WF _ D); [contradiction|auto].
    + tauto.
Qed.

Lemma encode_class d : wellFormed d ->
  good (encode d) /\ dropUnitFlag (encode d) = encClass d.
Proof.
  intro W. destruct (classSet d W) as (cs & DS & DC).
  pose proof (encClass_ext d (fun x => member x cs) DC) as EE.
  assert (T : forallb (fun cs => inb (encClass (fun x => member x cs)) closed) describable
              = true) by (vm_compute; reflexivity).
  rewrite forallb_forall in T. specialize (T _ DS).
  apply inb_In in T. rewrite <- EE in T.
  assert (K : dropUnitFlag (encode d) = encClass d).
  { rewrite encode_split, drop_and, encUnits_class. unfold tAnd.
    assert (X : forallb (fun w => N.eqb (N.land NoAccess (dropUnitFlag w)) w) closed = true)
      by (vm_compute; reflexivity).
    rewrite forallb_forall in X. specialize (X _ T). now apply N.eqb_eq in X. }
  split; [|exact K].
  split; [|now rewrite K]. rewrite encode_split. unfold fits, tAnd.
  rewrite <- N.land_assoc. f_equal.
  assert (X : forallb (fun w => N.eqb (N.land w NoAccess) w) closed = true)
    by (vm_compute; reflexivity).
  rewrite forallb_forall in X. specialize (X _ T). now apply N.eqb_eq in X.
Qed.

Definition pairOK (a b : list trait) : bool :=
  match classPart (tAnd (encClass (fun x => member x a)) (encClass (fun x => member x b))) with
  | None => false
  | Some cs =>
      let A := fun x => member x a in
      let B := fun x => member x b in
      let C := fun x => member x cs in
      implb (anyDep A || anyDep B) (C TFlow && C TAnti && C TOutput) &&
      implb (anyDep C) (C TFlow && C TAnti && C TOutput && negb (safe C)) &&
      implb (safe C) (safe A && safe B)
  end.

Lemma class_and a b : wellFormed a -> wellFormed b ->
  exists ts, traitsOf (tAnd (encode a) (encode b)) = Some ts /\
    let c := fold_left dSet ts dNone in
    (anyDep a || anyDep b = true -> forall k, c (tagOf k) = true) /\
    (anyDep c = true -> forall k, c (tagOf k) = true) /\
    (safe c = true -> safe a = true /\ safe b = true).
Proof.
  intros WA WB.
  destruct (encode_class a WA) as [GA KA]. destruct (encode_class b WB) as [GB KB].
  destruct (classSet a WA) as (as_ & SA & CA). destruct (classSet b WB) as (bs & SB & CB).
  pose proof (good_and _ _ GA GB) as G.
  destruct (classPart_total _ G) as [cs C].
  unfold traitsOf. rewrite C. eexists. split; [reflexivity|].
  cbv zeta.
  set (c := fold_left dSet (unitPart (tAnd (encode a) (encode b)) ++ cs) dNone).
  assert (cE : forall x, ~ In x unitTraits -> c x = member x cs).
  { intros x U. unfold c. rewrite fold_dSet. cbn [dNone orb].
    rewrite member_app, unitPart_member.
    replace (flagSet (tAnd (encode a) (encode b)) x) with false; [reflexivity|].
    unfold flagSet. destruct x; try reflexivity; exfalso; apply U; cbn; tauto. }
  rewrite <- classPart_drop, drop_and, KA, KB in C.
  rewrite (encClass_ext _ _ CA), (encClass_ext _ _ CB) in C.
  assert (T : forallb (fun a => forallb (pairOK a) describable) describable = true)
    by (vm_compute; reflexivity).
  rewrite forallb_forall in T. specialize (T _ SA). rewrite forallb_forall in T.
  specialize (T _ SB). unfold pairOK in T. rewrite C in T. cbv zeta in T.
  apply andb_true_iff in T. destruct T as [T T3]. apply andb_true_iff in T.
  destruct T as [T1 T2].
  assert (D : forall d ds, (forall x, ~ In x unitTraits -> d x = member x ds) ->
              anyDep d = anyDep (fun x => member x ds) /\ safe d = safe (fun x => member x ds)).
  { intros d ds H. unfold anyDep, safe.
    rewrite !H by (cbn; intro Q; decompose [or] Q; try discriminate; contradiction).
    split; reflexivity. }
  destruct (D _ _ CA) as [DA SFA]. destruct (D _ _ CB) as [DB SFB].
  destruct (D _ _ cE) as [DC SFC].
  assert (K : forall k, ~ In (tagOf k) unitTraits).
  { intros k Q. destruct k; cbn in Q; decompose [or] Q; try discriminate; contradiction. }
  rewrite DA, DB, DC, SFC, SFA, SFB. repeat split.
  - intros H k. rewrite cE by apply K. rewrite H in T1. cbn [implb] in T1.
    apply andb_true_iff in T1. destruct T1 as [T1 T1c]. apply andb_true_iff in T1.
    destruct T1 as [T1a T1b]. destruct k; assumption.
  - intros H k. rewrite cE by apply K. rewrite H in T2. cbn [implb] in T2.
    apply andb_true_iff in T2. destruct T2 as [T2 _].
    apply andb_true_iff in T2. destruct T2 as [T2 T2c]. apply andb_true_iff in T2.
    destruct T2 as [T2a T2b]. destruct k; assumption.
  - rewrite H in T3. cbn [implb] in T3. apply andb_true_iff in T3. apply T3.
  - rewrite H in T3. cbn [implb] in T3. apply andb_true_iff in T3. apply T3.
Qed.

(* classes which exclude each other *)
Lemma dep_alone d : wellFormed d -> anyDep d = true ->
  safe d = false /\ hasSpuriousDep d = false /\ hasNoDep d = false.
Proof.
  intros W H. destruct (classSet d W) as (cs & S & C).
  assert (T : forallb (fun cs => let d := fun x => member x cs in
     implb (anyDep d) (negb (safe d) && negb (hasSpuriousDep d) && negb (hasNoDep d)))
     describable = true) by (vm_compute; reflexivity).
  rewrite forallb_forall in T. specialize (T _ S). cbv zeta in T.
  assert (E : anyDep d = anyDep (fun x => member x cs) /\ safe d = safe (fun x => member x cs) /\
     hasSpuriousDep d = hasSpuriousDep (fun x => member x cs) /\
     hasNoDep d = hasNoDep (fun x => member x cs)).
  { unfold anyDep, safe, hasSpuriousDep, hasNoDep, isAny. cbn [existsb].
    rewrite !C by (cbn; intro Q; decompose [or] Q; try discriminate; contradiction).
    repeat split; reflexivity. }
  destruct E as (E1 & E2 & E3 & E4). rewrite E1 in H. rewrite H in T. cbn [implb] in T.
  rewrite E2, E3, E4.
  destruct (safe _), (hasSpuriousDep _), (hasNoDep _); try discriminate T; auto.
Qed.
Lemma spurious_dep d : hasNoDep d = false -> anyDep d = false -> hasSpuriousDep d = true.
Proof.
  intros A B. unfold hasSpuriousDep. rewrite A. unfold anyDep in B. unfold isAny.
  cbn [existsb]. rewrite (orb_false_r (d TOutput)), (orb_assoc (d TFlow)), B. reflexivity.
Qed.
Lemma hasNoDep_safe d : hasNoDep d = safe d.
Proof. unfold hasNoDep, isAny, safe. cbn [existsb]. now rewrite orb_false_r, orb_assoc. Qed.
Lemma never_alone d : wellFormed d -> d TNoAccess = true \/ d TReadonly = true ->
  hasSpuriousDep d = false /\ forall k, d (tagOf k) = false.
Proof.
  intros W H. destruct (classSet d W) as (cs & S & C).
  assert (T : forallb (fun cs => let d := fun x => member x cs in
     implb (d TNoAccess || d TReadonly) (negb (anyDep d) && negb (hasSpuriousDep d)))
     describable = true) by (vm_compute; reflexivity).
  rewrite forallb_forall in T. specialize (T _ S). cbv zeta in T.
  assert (E : anyDep d = anyDep (fun x => member x cs) /\
     hasSpuriousDep d = hasSpuriousDep (fun x => member x cs)).
  { unfold anyDep, hasSpuriousDep, hasNoDep, isAny. cbn [existsb].
    rewrite !C by (cbn; intro Q; decompose [or] Q; try discriminate; contradiction).
    repeat split; reflexivity. }
  destruct E as (E1 & E3).
  cbv beta in T.
  rewrite <- (C TNoAccess), <- (C TReadonly) in T
    by (cbn; intro Q; decompose [or] Q; try discriminate; contradiction).
  rewrite <- E1, <- E3 in T.
  assert (X : d TNoAccess || d TReadonly = true) by (destruct H as [-> | ->]; [reflexivity|apply orb_true_r]).
  rewrite X in T. cbn [implb] in T. unfold anyDep in T.
  destruct (d TFlow) eqn:?, (d TAnti) eqn:?, (d TOutput) eqn:?; try discriminate T.
  destruct (hasSpuriousDep d); [discriminate T|]. split; [reflexivity|].
  intros []; assumption.
Qed.
Lemma tag_any d k : d (tagOf k) = true -> anyDep d = true.
Proof. unfold anyDep. destruct k; cbn [tagOf]; intros ->; rewrite ?orb_true_r; reflexivity. Qed.
Lemma any_tag d : anyDep d = true -> exists k, d (tagOf k) = true.
Proof.
  unfold anyDep. intro H. apply orb_true_iff in H. destruct H as [H|H].
  - apply orb_true_iff in H. destruct H as [H|H]; [now exists KFlow|now exists KAnti].
  - now exists KOutput.
Qed.

(* new traits *)
Lemma kind_eqb_refl k : kind_eqb k k = true.
Proof. now destruct k. Qed.
Lemma kind_eqb_neq k q : k <> q -> kind_eqb k q = false.
Proof. destruct k, q; try reflexivity; intro H; now destruct H. Qed.
Lemma setDep_tag T k x q :
  tDescr (setDep T k x) (tagOf q) = kind_eqb q k || tDescr T (tagOf q).
Proof. destruct q, k; reflexivity. Qed.
Lemma getDep_set T k x : getDep (setDep T k x) k = Some x.
Proof.
  unfold getDep. rewrite setDep_tag, kind_eqb_refl. cbn [orb].
  cbn [setDep tDep]. now rewrite kind_eqb_refl.
Qed.
Lemma getDep_other T k x q : q <> k -> getDep (setDep T k x) q = getDep T q.
Proof.
  intro N. unfold getDep at 1. rewrite setDep_tag, (kind_eqb_neq _ _ N). cbn [orb setDep tDep].
  rewrite (kind_eqb_neq _ _ N). unfold getDep. now destruct (tDescr T (tagOf q)).
Qed.
Lemma wellFormed_set T k x : wellFormed (tDescr (setDep T k x)).
Proof.
  exists [TFlow; TAnti; TOutput]. split; [cbn; tauto|].
  intros t H. cbn [setDep tDescr] in H.
  destruct (existsb (trait_eqb t) unitTraits) eqn:U.
  - left. apply existsb_exists in U. destruct U as (u & IU & E).
    assert (t = u) by (destruct t, u; try discriminate E; reflexivity). now subst.
  - right. destruct t; cbn in U, H; try discriminate; cbn; tauto.
Qed.
Lemma anyDep_set T k x : anyDep (tDescr (setDep T k x)) = true.
Proof. apply (tag_any _ k). rewrite setDep_tag, kind_eqb_refl. reflexivity. Qed.
Lemma getDep_tag T k x : getDep T k = Some x -> tDescr T (tagOf k) = true.
Proof. unfold getDep. destruct (tDescr T (tagOf k)); [reflexivity|discriminate]. Qed.

(** A sequence of steps, one for each kind of dependences. *)
Section Steps.
Context {A : Type} (get : kind -> option A) (step : kind -> traits -> option traits).
Hypothesis shape : forall k T T', step k T = Some T' -> T' = T \/ exists x, T' = setDep T k x.
Hypothesis absent : forall k T, get k = None -> getDep T k = None -> step k T = Some T.

Definition later (T0 T : traits) (k : kind) : Prop :=
  getDep T k = getDep T0 k /\ tDescr T (tagOf k) = tDescr T0 (tagOf k) /\
  ((T = T0) \/
   (anyDep (tDescr T) = true /\ wellFormed (tDescr T) /\
    exists q, q <> k /\ (get q <> None \/ getDep T0 q <> None))).
Lemma later_refl T k : later T T k.
Proof. repeat split; now left. Qed.
Lemma later_step T0 T T' q k : q <> k -> later T0 T k -> getDep T q = getDep T0 q ->
  step q T = Some T' -> later T0 T' k.
Proof.
  intros N (E1 & E2 & E3) EQ H. destruct (shape _ _ _ H) as [->|[x ->]].
  - repeat split; assumption.
  - split; [|split].
    + rewrite getDep_other; [exact E1|congruence].
    + rewrite setDep_tag, kind_eqb_neq by congruence. exact E2.
    + right. split; [apply anyDep_set|]. split; [apply wellFormed_set|].
      exists q. split; [exact N|].
      destruct (get q) eqn:G; [left; discriminate|]. right. intro D.
      destruct E3 as [->|E3].
      * rewrite (absent _ _ G D) in H. injection H as H.
        assert (X : getDep (setDep T0 q x) q = None) by now rewrite <- H.
        rewrite getDep_set in X. discriminate.
      * rewrite <- EQ in D. rewrite (absent _ _ G D) in H. injection H as H.
        assert (X : getDep (setDep T q x) q = None) by now rewrite <- H.
        rewrite getDep_set in X. discriminate.
Qed.
Lemma keep_step T T' q k : q <> k -> step q T = Some T' ->
  getDep T' k = getDep T k /\ tDescr T' (tagOf k) = tDescr T (tagOf k).
Proof.
  intros N H. destruct (shape _ _ _ H) as [->|[x ->]]; [auto|].
  rewrite getDep_other, setDep_tag, kind_eqb_neq by congruence. auto.
Qed.
Lemma combineKinds_at T0 R k : combineKinds step T0 = Some R ->
  exists T T', later T0 T k /\ step k T = Some T' /\
    getDep R k = getDep T' k /\ tDescr R (tagOf k) = tDescr T' (tagOf k).
Proof.
  unfold combineKinds. intro H.
  destruct (step KFlow T0) as [T1|] eqn:S1; [|discriminate].
  destruct (step KAnti T1) as [T2|] eqn:S2; [|discriminate].
  destruct k.
  - exists T0, T1. split; [apply later_refl|]. split; [exact S1|].
    destruct (keep_step _ _ KAnti KFlow ltac:(discriminate) S2) as [A1 A2].
    destruct (keep_step _ _ KOutput KFlow ltac:(discriminate) H) as [B1 B2].
    split; congruence.
  - exists T1, T2. split; [|split; [exact S2|]].
    + apply (later_step T0 T0 T1 KFlow KAnti); [discriminate|apply later_refl|reflexivity|exact S1].
    + apply (keep_step _ _ KOutput KAnti ltac:(discriminate) H).
  - exists T2, R. split; [|split; [exact H|split; reflexivity]].
    apply (later_step T0 T1 T2 KAnti KOutput); [discriminate| | |exact S2].
    + apply (later_step T0 T0 T1 KFlow KOutput); [discriminate|apply later_refl|reflexivity|exact S1].
    + apply (keep_step _ _ KFlow KAnti ltac:(discriminate) S1).
Qed.

Lemma combineKinds_shape T0 R : wellFormed (tDescr T0) -> combineKinds step T0 = Some R ->
  wellFormed (tDescr R) /\
  (R = T0 \/ (anyDep (tDescr R) = true /\
     forall k, tDescr R (tagOf k) = true -> get k <> None \/ tDescr T0 (tagOf k) = true)).
Proof.
  intros W H. split.
  - unfold combineKinds in H. destruct (step KFlow T0) as [T1|] eqn:S1; [|discriminate].
    destruct (step KAnti T1) as [T2|] eqn:S2; [|discriminate].
    assert (P : forall k T T', wellFormed (tDescr T) -> step k T = Some T' ->
                wellFormed (tDescr T')).
    { intros k T T' WT ST. destruct (shape _ _ _ ST) as [->|[x ->]];
        [exact WT|apply wellFormed_set]. }
    exact (P _ _ _ (P _ _ _ (P _ _ _ W S1) S2) H).
  - assert (Q : R = T0 \/ anyDep (tDescr R) = true).
    { unfold combineKinds in H. destruct (step KFlow T0) as [T1|] eqn:S1; [|discriminate].
      destruct (step KAnti T1) as [T2|] eqn:S2; [|discriminate].
      destruct (shape _ _ _ H) as [->|[x ->]]; [|right; apply anyDep_set].
      destruct (shape _ _ _ S2) as [->|[x ->]]; [|right; apply anyDep_set].
      destruct (shape _ _ _ S1) as [->|[x ->]]; [|right; apply anyDep_set]. now left. }
    destruct Q as [Q|Q]; [now left|]. right. split; [exact Q|].
    intros k D. destruct (combineKinds_at _ _ k H) as (T & T' & (L1 & L2 & L3) & ST & E1 & E2).
    destruct (tDescr T0 (tagOf k)) eqn:D0; [now right|]. left. intro G.
    rewrite (absent k T G) in ST.
    + injection ST as <-. congruence.
    + rewrite L1. unfold getDep. now rewrite D0.
Qed.
Lemma combineKinds_total T0 :
  (forall k T, getDep T k = getDep T0 k -> exists T', step k T = Some T') ->
  exists R, combineKinds step T0 = Some R.
Proof.
  intro P. unfold combineKinds.
  destruct (P KFlow T0 eq_refl) as [T1 S1]. rewrite S1.
  destruct (keep_step _ _ KFlow KAnti ltac:(discriminate) S1) as [A1 _].
  destruct (keep_step _ _ KFlow KOutput ltac:(discriminate) S1) as [A2 _].
  destruct (P KAnti T1 A1) as [T2 S2]. rewrite S2.
  destruct (keep_step _ _ KAnti KOutput ltac:(discriminate) S2) as [B1 _].
  apply P. congruence.
Qed.
End Steps.

(* the last step *)
Lemma finish_inv f d0 T R : wellFormed f -> wellFormed d0 -> wellFormed (tDescr T) ->
  (T = Traits d0 (tDep T) \/ anyDep (tDescr T) = true) ->
  (forall k, tDescr T (tagOf k) = true -> f (tagOf k) = true \/ d0 (tagOf k) = true) ->
  finish f d0 T = Some R ->
  (forall k P, possible f k P \/ possible d0 k P ->
     (anyDep (tDescr R) = true -> tDescr R (tagOf k) = true) /\
     (anyDep (tDescr R) = false -> safe (tDescr R) = false)) /\
  (forall k, f (tagOf k) = true \/ d0 (tagOf k) = true -> tDescr R (tagOf k) = true) /\
  (forall k, getDep R k = if tDescr R (tagOf k) then getDep T k else None).
Proof.
  intros WF W0 WT ST SD H. unfold finish in H.
  destruct (class_and _ _ WT WF) as (ts & E & C1 & C2 & C3). rewrite E in H.
  set (c := fold_left dSet ts dNone) in *. cbv zeta in H.
  set (c1 := fun t => if isAny (trait_eqb t) [TFlow; TAnti; TOutput]
       && negb (hasSpuriousDep f || hasSpuriousDep d0) then f t || d0 t else c t) in H.
  injection H as H.
  assert (D : forall t, t <> TRedundant -> tDescr R t = c1 t).
  { intros t N. rewrite <- H. cbn [tDescr]. unfold unsetIf.
    destruct (c TNoRedundant); [|reflexivity]. unfold dUnset.
    destruct t; try reflexivity. now destruct N. }
  assert (DT : forall k, tDescr R (tagOf k) = c1 (tagOf k)) by (intro k; apply D; now destruct k).
  assert (DA : anyDep (tDescr R) = anyDep c1).
  { unfold anyDep. now rewrite (DT KFlow : tDescr R TFlow = _),
      (DT KAnti : tDescr R TAnti = _), (DT KOutput : tDescr R TOutput = _). }
  assert (DS : safe (tDescr R) = safe c).
  { unfold safe. rewrite !D by discriminate. reflexivity. }
  assert (C1k : forall k, c1 (tagOf k) = if hasSpuriousDep f || hasSpuriousDep d0 then c (tagOf k)
                   else f (tagOf k) || d0 (tagOf k)).
  { intro k. unfold c1. destruct (hasSpuriousDep f || hasSpuriousDep d0); cbn [negb].
    - rewrite andb_false_r. reflexivity.
    - destruct k; reflexivity. }
  assert (G : forall k, getDep R k = if tDescr R (tagOf k) then getDep T k else None).
  { intro k. unfold getDep at 1. rewrite <- H. cbn [tDescr tDep].
    match goal with |- context [if ?b then _ else _] => destruct b eqn:? end; reflexivity. }
  assert (TG : forall k, f (tagOf k) = true \/ d0 (tagOf k) = true -> tDescr R (tagOf k) = true).
  { intros k Q. rewrite DT, C1k.
    destruct (hasSpuriousDep f || hasSpuriousDep d0) eqn:U.
    - apply C1. destruct Q as [Q|Q].
      + rewrite (tag_any f k Q). apply orb_true_r.
      + destruct ST as [ST|ST].
        * rewrite ST. cbn [tDescr]. now rewrite (tag_any d0 k Q).
        * now rewrite ST.
    - destruct Q as [-> | ->]; [reflexivity|apply orb_true_r]. }
  split; [|split; [exact TG|exact G]].
  intros k P HP. rewrite DA, DS, DT.
  assert (PS : forall d, wellFormed d -> possible d k P ->
      (anyDep d = true /\ d (tagOf k) = true) \/
      (anyDep d = false /\ safe d = false /\ hasSpuriousDep d = true)).
  { intros d WD Q. unfold possible in Q. fold (anyDep d) in Q.
    destruct (anyDep d) eqn:AD.
    - left. tauto.
    - right. split; [reflexivity|]. destruct Q as (Q1 & Q2 & Q3).
      assert (SF : safe d = false) by (unfold safe; now rewrite Q1, Q2, Q3).
      split; [exact SF|]. apply spurious_dep; [now rewrite hasNoDep_safe|exact AD]. }
  assert (QQ : (f (tagOf k) = true \/ d0 (tagOf k) = true) \/
     ((safe f = false /\ hasSpuriousDep f = true) \/
      (anyDep d0 = false /\ safe d0 = false /\ hasSpuriousDep d0 = true))).
  { destruct HP as [HP|HP]; [destruct (PS f WF HP)|destruct (PS d0 W0 HP)]; tauto. }
  split.
  - intro A1. destruct QQ as [QQ|QQ].
    + rewrite <- DT. now apply TG.
    + rewrite C1k. assert (U : hasSpuriousDep f || hasSpuriousDep d0 = true).
      { destruct QQ as [(_ & ->)|(_ & _ & ->)]; [reflexivity|apply orb_true_r]. }
      rewrite U. apply C2. destruct (any_tag _ A1) as [q A2]. rewrite C1k, U in A2.
      exact (tag_any _ _ A2).
  - intro A1. destruct QQ as [QQ|QQ].
    + apply TG in QQ. rewrite DT in QQ. rewrite (tag_any _ _ QQ) in A1. discriminate.
    + destruct (safe c) eqn:SC; [|reflexivity]. destruct (C3 eq_refl) as [S1 S2].
      destruct QQ as [(Q & _)|(Q1 & Q2 & _)]; [congruence|].
      destruct ST as [ST|ST].
      * rewrite ST in S1. cbn [tDescr] in S1. congruence.
      * destruct (dep_alone _ WT ST) as [X _]. congruence.
Qed.
Lemma finish_total f d0 T : wellFormed f -> wellFormed (tDescr T) -> exists R, finish f d0 T = Some R.
Proof.
  intros WF WT. unfold finish. destruct (class_and _ _ WT WF) as (ts & E & _). rewrite E.
  eexists. reflexivity.
Qed.

(** Ranges of distances. *)
Definition covers (rs : list range) (v : distances) : Prop :=
  forall i r, nth_error rs i = Some r ->
    inRange (num valueOf (fst r)) (num valueOf (snd r)) (v i).
Lemma covers_nil v : covers [] v.
Proof. intros i r H. destruct i; discriminate. Qed.
Lemma covers_cons r rs v : inRange (num valueOf (fst r)) (num valueOf (snd r)) (v 0%nat) ->
  covers rs (fun i => v (S i)) -> covers (r :: rs) v.
Proof.
  intros A B i s H. destruct i; cbn [nth_error] in H.
  - injection H as <-. exact A.
  - exact (B i s H).
Qed.
Lemma covers_hd r rs v : covers (r :: rs) v ->
  inRange (num valueOf (fst r)) (num valueOf (snd r)) (v 0%nat).
Proof. intro H. exact (H 0%nat r eq_refl). Qed.
Lemma covers_tl r rs v : covers (r :: rs) v -> covers rs (fun i => v (S i)).
Proof. intros H i s E. exact (H (S i) s E). Qed.
Lemma covers_trim rs : forall v, covers rs v -> covers (trim rs) v.
Proof.
  induction rs as [|[l h] rs IH]; intros v H; [exact H|].
  pose proof (covers_hd _ _ _ H) as A. pose proof (IH _ (covers_tl _ _ _ H)) as B.
  cbn [trim]. destruct l, h, (trim rs); try apply covers_nil; now apply covers_cons.
Qed.
Lemma mergeRange_ok a b r z : mergeRange a b = Some r ->
  inRange (num valueOf (fst a)) (num valueOf (snd a)) z \/
  inRange (num valueOf (fst b)) (num valueOf (snd b)) z ->
  inRange (num valueOf (fst r)) (num valueOf (snd r)) z.
Proof.
  destruct a as [al ah], b as [bl bh]. unfold mergeRange. cbn [fst snd].
  destruct (mergeLo al bl) as [l|] eqn:L; [|discriminate].
  destruct (mergeHi ah bh) as [h|] eqn:H; [|discriminate].
  intro E. injection E as <-. cbn [fst snd]. intro C. split.
  - intros x E. unfold mergeLo in L. destruct al as [x1|], bl as [x2|];
      try (injection L as <-; discriminate E).
    unfold leAPS in L.
    destruct (Bool.eqb (sUnsigned x1) (sUnsigned x2)
              && (aWidth (sInt x1) =? aWidth (sInt x2))%Z); [|discriminate].
    injection L as <-. cbn [num] in *. injection E as <-.
    destruct (Z.leb_spec (valueOf x1) (valueOf x2)) as [Q|Q];
      destruct C as [[C _]|[C _]]; specialize (C _ eq_refl); lia.
  - intros x E. unfold mergeHi in H. destruct ah as [x1|], bh as [x2|];
      try (injection H as <-; discriminate E).
    unfold leAPS in H.
    destruct (Bool.eqb (sUnsigned x2) (sUnsigned x1)
              && (aWidth (sInt x2) =? aWidth (sInt x1))%Z); [|discriminate].
    injection H as <-. cbn [num] in *. injection E as <-.
    destruct (Z.leb_spec (valueOf x2) (valueOf x1)) as [Q|Q];
      destruct C as [[_ C]|[_ C]]; specialize (C _ eq_refl); lia.
Qed.
Lemma mergeDI_ok a : forall b rs v, mergeDI a b = Some rs ->
  covers a v \/ covers b v -> covers rs v.
Proof.
  induction a as [|x a IH]; intros b rs v H C.
  - injection H as <-. apply covers_nil.
  - destruct b as [|y b]; cbn [mergeDI] in H; [injection H as <-; apply covers_nil|].
    destruct (mergeRange x y) as [r|] eqn:M; [|discriminate].
    destruct (mergeDI a b) as [rs'|] eqn:N; [|discriminate]. injection H as <-.
    apply covers_cons.
    + apply (mergeRange_ok _ _ _ _ M). destruct C as [C|C]; apply covers_hd in C; auto.
    + apply (IH b _ _ N). destruct C as [C|C]; apply covers_tl in C; auto.
Qed.
Lemma mergeIR_ok a : forall b rs v, mergeIR a b = Some rs ->
  covers a v \/ covers b v -> covers rs v.
Proof.
  induction a as [|x a IH]; intros b rs v H C.
  - injection H as <-. apply covers_nil.
  - destruct b as [|y b]; cbn [mergeIR] in H.
    + destruct x as [[l|] [h|]]; cbn [fst snd] in H; try discriminate.
      destruct (mergeIR a []) as [rs'|] eqn:N; [|discriminate]. injection H as <-.
      apply covers_cons; [split; intros ? E; discriminate E|].
      apply (IH [] _ _ N). right. apply covers_nil.
    + destruct (mergeRange x y) as [r|] eqn:M; [|discriminate].
      destruct (mergeIR a b) as [rs'|] eqn:N; [|discriminate]. injection H as <-.
      apply covers_cons.
      * apply (mergeRange_ok _ _ _ _ M). destruct C as [C|C]; apply covers_hd in C; auto.
      * apply (IH b _ _ N). destruct C as [C|C]; apply covers_tl in C; auto.
Qed.

Definition coversIR (rs : list (option apint * option apint)) (v : distances) : Prop :=
  forall i r, nth_error rs i = Some r ->
    inRange (num signedValue (fst r)) (num signedValue (snd r)) (v i).
Lemma toAPS_rest a : num valueOf (toAPS false a) = num signedValue a.
Proof. now destruct a. Qed.
Lemma toAPS_first a : nonNegative a -> num valueOf (toAPS true a) = num signedValue a.
Proof.
  destruct a as [x|]; [|reflexivity]. intros [N1 N2]. cbn [toAPS num valueOf sUnsigned sInt].
  unfold valueOf. cbn [sUnsigned sInt]. unfold signedValue. apply Z.ltb_lt in N2. now rewrite N2.
Qed.
Lemma toRanges_ok rs v : (forall r t, rs = r :: t -> nonNegative (fst r) /\ nonNegative (snd r)) ->
  coversIR rs v -> covers (toRanges rs) v.
Proof.
  destruct rs as [|r rs]; intros N C; [apply covers_nil|].
  destruct (N r rs eq_refl) as [N1 N2]. cbn [toRanges]. apply covers_cons.
  - unfold toRange. cbn [fst snd]. rewrite !toAPS_first by assumption.
    exact (C 0%nat r eq_refl).
  - intros i s H. rewrite nth_error_map in H.
    destruct (nth_error rs i) as [t|] eqn:E; [|discriminate]. injection H as <-.
    unfold toRange. cbn [fst snd]. rewrite !toAPS_rest. exact (C (S i) t E).
Qed.

(** One step. *)
Lemma setDep_some T k x : getDep (setDep T k x) k <> None.
Proof. rewrite getDep_set. discriminate. Qed.
Lemma combineDI_shape From k T T' : combineDI k From T = Some T' ->
  T' = T \/ exists x, T' = setDep T k x.
Proof.
  unfold combineDI. intro H.
  repeat match type of H with
  | context [match ?e with _ => _ end] => destruct e
  end; try discriminate H; injection H as <-; eauto.
Qed.
Lemma combineDI_absent From k T : getDep From k = None -> getDep T k = None ->
  combineDI k From T = Some T.
Proof. unfold combineDI. now intros -> ->. Qed.
Lemma combineIR_shape From k T T' : combineIR k From T = Some T' ->
  T' = T \/ exists x, T' = setDep T k x.
Proof.
  unfold combineIR. intro H.
  repeat match type of H with
  | context [match ?e with _ => _ end] => destruct e
  end; try discriminate H; injection H as <-; eauto.
Qed.
Lemma combineIR_absent From k T : getIRDep From k = None -> getDep T k = None ->
  combineIR k From T = Some T.
Proof. unfold combineIR. now intros -> ->. Qed.

Lemma possible_tag d k P : anyDep d = true -> possible d k P -> d (tagOf k) = true /\ P.
Proof. unfold possible. fold (anyDep d). now intros ->. Qed.
Lemma possible_any d k P : anyDep d = false -> possible d k P ->
  vague d /\ hasSpuriousDep d = true.
Proof.
  intros A H. assert (V : vague d).
  { intros q Q. unfold possible in *. fold (anyDep d) in *. now rewrite A in *. }
  split; [exact V|]. unfold possible in H. fold (anyDep d) in H. rewrite A in H.
  destruct H as (H1 & H2 & H3). apply spurious_dep; [|exact A].
  rewrite hasNoDep_safe. unfold safe. now rewrite H1, H2, H3.
Qed.

(* a set of traits before a step does not have a description of a kind and is not vague *)
Lemma before_step {A : Type} (get : kind -> option A) d0T T k P :
  later get d0T T k -> get k <> None ->
  (vague (tDescr d0T) -> oneDescribed get) ->
  hasSpuriousDep (tDescr T) = false -> tDescr T (tagOf k) = false ->
  possible (tDescr d0T) k P -> False.
Proof.
  intros (L1 & L2 & L3) G O S D HP.
  destruct (anyDep (tDescr d0T)) eqn:A0.
  - destruct (possible_tag _ _ _ A0 HP) as [X _]. congruence.
  - destruct (possible_any _ _ _ A0 HP) as [V SP].
    destruct L3 as [->|(_ & _ & q & NQ & [Q|Q])]; [congruence| |].
    + apply NQ. exact (O V q k Q G).
    + destruct (getDep d0T q) as [z|] eqn:Z; [|now apply Q].
      apply getDep_tag in Z. rewrite (tag_any _ _ Z) in A0. discriminate.
Qed.

Lemma mayCause_get T k v x : mayCause T k v -> getDep T k = Some x -> covers (dDist x) v.
Proof.
  intros H G. pose proof (getDep_tag _ _ _ G) as D.
  destruct (possible_tag _ _ _ (tag_any _ _ D) H) as [_ C]. exact (C x G).
Qed.
Lemma getIRDep_tag T k x : getIRDep T k = Some x -> rDescr T (tagOf k) = true.
Proof. unfold getIRDep. destruct (rDescr T (tagOf k)); [reflexivity|discriminate]. Qed.
Lemma mayCauseIR_get T k v x : mayCauseIR T k v -> getIRDep T k = Some x -> coversIR (rDist x) v.
Proof.
  intros H G. pose proof (getIRDep_tag _ _ _ G) as D.
  destruct (possible_tag _ _ _ (tag_any _ _ D) H) as [_ C]. exact (C x G).
Qed.
Lemma not_vague d k P : possible d k P -> hasSpuriousDep d || d (tagOf k) = true.
Proof.
  intro H. destruct (anyDep d) eqn:A.
  - destruct (possible_tag _ _ _ A H) as [-> _]. apply orb_true_r.
  - destruct (possible_any _ _ _ A H) as [_ ->]. reflexivity.
Qed.

Lemma step_cover Old DI T T' k v z :
  later (getDep Old) DI T k -> (vague (tDescr DI) -> oneDescribed (getDep Old)) ->
  combineDI k Old T = Some T' -> mayCause Old k v \/ mayCause DI k v ->
  getDep T' k = Some z -> covers (dDist z) v.
Proof.
  intros L O H M G. pose proof L as (L1 & L2 & L3). unfold combineDI in H.
  destruct (getDep Old k) as [x|] eqn:GO.
  - destruct (getDep T k) as [y|] eqn:GT.
    + destruct (mergeDI (dDist x) (dDist y)) as [rs|] eqn:MD; [|discriminate].
      injection H as <-. rewrite getDep_set in G. injection G as <-. cbn [dDist].
      apply covers_trim. apply (mergeDI_ok _ _ _ _ MD). destruct M as [M|M].
      * left. exact (mayCause_get _ _ _ _ M GO).
      * right. symmetry in L1. exact (mayCause_get _ _ _ _ M L1).
    + destruct (negb (hasSpuriousDep (tDescr T)) && negb (tDescr T (tagOf k))) eqn:C;
        injection H as <-; rewrite getDep_set in G; injection G as <-; [|apply covers_nil].
      apply andb_true_iff in C. destruct C as [C1 C2]. apply negb_true_iff in C1, C2.
      destruct M as [M|M]; [exact (mayCause_get _ _ _ _ M GO)|]. exfalso.
      assert (GN : getDep Old k <> None) by (rewrite GO; discriminate).
      exact (before_step _ _ _ _ _ L GN O C1 C2 M).
  - destruct (getDep T k) as [y|] eqn:GT.
    + destruct (hasSpuriousDep (tDescr Old) || tDescr Old (tagOf k)) eqn:C;
        injection H as <-.
      * rewrite getDep_set in G. injection G as <-. apply covers_nil.
      * rewrite GT in G. injection G as <-. destruct M as [M|M].
        -- pose proof (not_vague _ _ _ M). congruence.
        -- symmetry in L1. exact (mayCause_get _ _ _ _ M L1).
    + injection H as <-. congruence.
Qed.
Lemma step_coverIR IR DI T T' k v z :
  later (getIRDep IR) DI T k -> (vague (tDescr DI) -> oneDescribed (getIRDep IR)) ->
  firstNonNegative IR ->
  combineIR k IR T = Some T' -> mayCauseIR IR k v \/ mayCause DI k v ->
  getDep T' k = Some z -> covers (dDist z) v.
Proof.
  intros L O FN H M G. pose proof L as (L1 & L2 & L3). unfold combineIR in H.
  destruct (getIRDep IR k) as [x|] eqn:GO.
  - assert (TR : mayCauseIR IR k v -> covers (toRanges (rDist x)) v).
    { intro Q. apply toRanges_ok; [|exact (mayCauseIR_get _ _ _ _ Q GO)].
      intros r t E. exact (FN k x r t GO E). }
    destruct (getDep T k) as [y|] eqn:GT.
    + destruct (mergeIR (toRanges (rDist x)) (dDist y)) as [rs|] eqn:MD; [|discriminate].
      injection H as <-. rewrite getDep_set in G. injection G as <-. cbn [dDist].
      apply covers_trim. apply (mergeIR_ok _ _ _ _ MD). destruct M as [M|M].
      * left. exact (TR M).
      * right. symmetry in L1. exact (mayCause_get _ _ _ _ M L1).
    + destruct (negb (hasSpuriousDep (tDescr T)) && negb (tDescr T (tagOf k))) eqn:C;
        injection H as <-; rewrite getDep_set in G; injection G as <-; [|apply covers_nil].
      apply andb_true_iff in C. destruct C as [C1 C2]. apply negb_true_iff in C1, C2.
      cbn [dDist]. apply covers_trim.
      destruct M as [M|M]; [exact (TR M)|]. exfalso.
      assert (GN : getIRDep IR k <> None) by (rewrite GO; discriminate).
      exact (before_step _ _ _ _ _ L GN O C1 C2 M).
  - destruct (getDep T k) as [y|] eqn:GT.
    + destruct (hasSpuriousDep (rDescr IR) || rDescr IR (tagOf k)) eqn:C;
        injection H as <-.
      * rewrite getDep_set in G. injection G as <-. apply covers_nil.
      * rewrite GT in G. injection G as <-. destruct M as [M|M].
        -- pose proof (not_vague _ _ _ M). congruence.
        -- symmetry in L1. exact (mayCause_get _ _ _ _ M L1).
    + injection H as <-. congruence.
Qed.

(** The result of [merge] at a kind of dependences. *)
Lemma merge_inv Old DI R : wellFormed (tDescr Old) -> wellFormed (tDescr DI) ->
  merge Old DI = Some R ->
  (forall k P, possible (tDescr Old) k P \/ possible (tDescr DI) k P ->
     (anyDep (tDescr R) = true -> tDescr R (tagOf k) = true) /\
     (anyDep (tDescr R) = false -> safe (tDescr R) = false)) /\
  (forall k, tDescr Old (tagOf k) = true \/ tDescr DI (tagOf k) = true ->
     tDescr R (tagOf k) = true) /\
  (forall k, exists T T', later (getDep Old) DI T k /\ combineDI k Old T = Some T' /\
     getDep R k = if tDescr R (tagOf k) then getDep T' k else None).
Proof.
  intros WO WD H. unfold merge in H.
  destruct (combineKinds (fun k => combineDI k Old) DI) as [S|] eqn:C; [|discriminate].
  pose proof (combineKinds_shape (getDep Old) (fun k => combineDI k Old)
    (combineDI_shape Old) (combineDI_absent Old) DI S WD C) as [WS SH].
  assert (X1 : S = Traits (tDescr DI) (tDep S) \/ anyDep (tDescr S) = true).
  { destruct SH as [-> |[A _]]; [left; now destruct DI|now right]. }
  assert (X2 : forall k, tDescr S (tagOf k) = true ->
     tDescr Old (tagOf k) = true \/ tDescr DI (tagOf k) = true).
  { intros k D. destruct SH as [-> |[_ A]]; [now right|]. destruct (A k D) as [B|B]; [left|now right].
    destruct (getDep Old k) as [x|] eqn:G; [|now destruct B]. exact (getDep_tag _ _ _ G). }
  destruct (finish_inv _ _ _ _ WO WD WS X1 X2 H) as (F1 & F2 & F3).
  split; [exact F1|]. split; [exact F2|]. intro k.
  destruct (combineKinds_at (getDep Old) (fun k => combineDI k Old)
    (combineDI_shape Old) (combineDI_absent Old) DI S k C) as (T & T' & L & ST & E1 & E2).
  exists T, T'. split; [exact L|]. split; [exact ST|]. now rewrite F3, E1.
Qed.
Lemma combineWith_inv IR DI R : wellFormed (rDescr IR) -> wellFormed (tDescr DI) ->
  combineWith IR DI = Some R ->
  (forall k P, possible (rDescr IR) k P \/ possible (tDescr DI) k P ->
     (anyDep (tDescr R) = true -> tDescr R (tagOf k) = true) /\
     (anyDep (tDescr R) = false -> safe (tDescr R) = false)) /\
  (forall k, exists T T', later (getIRDep IR) DI T k /\ combineIR k IR T = Some T' /\
     getDep R k = if tDescr R (tagOf k) then getDep T' k else None).
Proof.
  intros WO WD H. unfold combineWith in H.
  destruct (combineKinds (fun k => combineIR k IR) DI) as [S|] eqn:C; [|discriminate].
  pose proof (combineKinds_shape (getIRDep IR) (fun k => combineIR k IR)
    (combineIR_shape IR) (combineIR_absent IR) DI S WD C) as [WS SH].
  assert (X1 : S = Traits (tDescr DI) (tDep S) \/ anyDep (tDescr S) = true).
  { destruct SH as [-> |[A _]]; [left; now destruct DI|now right]. }
  assert (X2 : forall k, tDescr S (tagOf k) = true ->
     rDescr IR (tagOf k) = true \/ tDescr DI (tagOf k) = true).
  { intros k D. destruct SH as [-> |[_ A]]; [now right|]. destruct (A k D) as [B|B]; [left|now right].
    destruct (getIRDep IR k) as [x|] eqn:G; [|now destruct B]. exact (getIRDep_tag _ _ _ G). }
  destruct (finish (rDescr IR) (tDescr DI) S) as [R0|] eqn:FI; [|discriminate].
  destruct (finish_inv _ _ _ _ WO WD WS X1 X2 FI) as (F1 & F2 & F3).
  cbv zeta in H. injection H as H.
  assert (D : forall t, t <> TIndirectAccess -> tDescr R t = tDescr R0 t).
  { intros t N. rewrite <- H. cbn [tDescr]. unfold unsetIf.
    destruct (tDescr R0 TDirectAccess); [|reflexivity]. unfold dUnset.
    destruct t; try reflexivity. now destruct N. }
  assert (DT : forall k, tDescr R (tagOf k) = tDescr R0 (tagOf k))
    by (intro k; apply D; now destruct k).
  assert (DA : anyDep (tDescr R) = anyDep (tDescr R0)).
  { unfold anyDep. now rewrite !D by discriminate. }
  assert (DS : safe (tDescr R) = safe (tDescr R0)).
  { unfold safe. now rewrite !D by discriminate. }
  split.
  - intros k P HP. rewrite DA, DS, DT. exact (F1 k P HP).
  - intro k.
    destruct (combineKinds_at (getIRDep IR) (fun k => combineIR k IR)
      (combineIR_shape IR) (combineIR_absent IR) DI S k C) as (T & T' & L & ST & E1 & E2).
    exists T, T'. split; [exact L|]. split; [exact ST|].
    rewrite <- E1, DT. unfold getDep at 1. rewrite DT. rewrite <- H. cbn [tDep].
    match goal with |- context [unsetIf ?b ?t ?c ?x] =>
      replace (unsetIf b t c x) with (tDescr R0 (tagOf k)) end.
    + rewrite F3. now destruct (tDescr R0 (tagOf k)).
    + rewrite <- DT, <- H. reflexivity.
Qed.

Lemma possible_intro d k (Q : Prop) :
  (anyDep d = true -> d (tagOf k) = true) -> (anyDep d = false -> safe d = false) ->
  Q -> possible d k Q.
Proof.
  intros A B HQ. unfold possible. fold (anyDep d). destruct (anyDep d).
  - auto.
  - specialize (B eq_refl). unfold safe in B.
    destruct (d TNoAccess), (d TReadonly), (d TShared); try discriminate B; auto.
Qed.
