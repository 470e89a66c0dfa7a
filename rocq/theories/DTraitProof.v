(** Proofs about recorded loop-carried dependences. *)
From Coq Require Import ZArith Bool List Arith Lia.
From Verif Require Import DepModel DepSpec DTraitModel DTraitSpec.
Import ListNotations.

Section P.
Context {Env : Type} (Bits : Z).
Notation scev := (scev Env).
Implicit Types (d : dep Env) (s : tstate Env) (h : history Env) (i : distInfo Env).

Lemma dirsEqb_eq a b : dirsEqb a b = true <-> a = b.
Proof.
  destruct a as [a1 a2 a3], b as [b1 b2 b3]. unfold dirsEqb; cbn.
  destruct a1, a2, a3, b1, b2, b3; cbn; split; congruence.
Qed.
Lemma outerOk_eq d : forall n o, outerOk _ d o n = true <->
  (forall l, (o <= l < o + n)%nat -> dEQ (pDirection _ d l) = true).
Proof.
  induction n as [|n IH]; intro o; cbn [outerOk].
  - split; [intros _ l H; lia|reflexivity].
  - assert (E : (negb (dirsEqb (pDirection _ d o) dEQonly) && negb (dirsEqb (pDirection _ d o) dALL)
       && negb (dirsEqb (pDirection _ d o) dLE) && negb (dirsEqb (pDirection _ d o) dGE)) = negb (dEQ (pDirection _ d o))).
    { destruct (pDirection _ d o) as [[] [] []]; reflexivity. }
    cbv zeta. rewrite E. destruct (dEQ (pDirection _ d o)) eqn:D; cbn [negb].
    + rewrite IH. split; intros H l L.
      * destruct (Nat.eq_dec l o) as [->|N]; [exact D|]. apply H. lia.
      * apply H. lia.
    + split; [discriminate|]. intro H. rewrite (H o) in D by lia. discriminate.
Qed.

(** ** insertDependence *)
Lemma insert_sets d k e x y t : (1 <= k <= pLevels _ d)%nat ->
  truthful (pConfusedLevels _ d) d e x y -> carriedBy k x y -> kindOf d k x y = Some t ->
  (pDirection _ d k <> dNE \/ t = Output) ->
  exists u, insertDependence _ d k = Some u /\ uSet _ u t = true.
Proof.
  intros K T [C1 C2] KO NE. unfold insertDependence.
  destruct (pConfused _ d || (k <=? pConfusedLevels _ d)%nat) eqn:CF.
  { eexists. split; [reflexivity|]. destruct t; reflexivity. }
  apply orb_false_iff in CF. destruct CF as [CF LC]. apply Nat.leb_gt in LC.
  destruct T as [T|T]; [congruence|]. cbv zeta.
  set (start := if (0 <? pConfusedLevels _ d)%nat then pConfusedLevels _ d else 1%nat).
  assert (ST : (1 <= start <= k /\ pConfusedLevels _ d <= start)%nat).
  { unfold start. destruct (Nat.ltb_spec 0 (pConfusedLevels _ d)); lia. }
  assert (OK : outerOk _ d start (k - start) = true).
  { apply outerOk_eq. intros l L. destruct (T l ltac:(lia) ltac:(lia)) as [(_ & A & _) _].
    apply A. apply C1. lia. }
  rewrite OK. cbn [negb].
  destruct (T k ltac:(lia) ltac:(lia)) as [(A1 & A2 & A3) _].
  unfold kindOf, orderedKind in KO. unfold isOutput, isFlow, isAnti, dirsEqb.
  destruct (Z.ltb_spec (x k) (y k)) as [L|G].
  - specialize (A1 L). destruct (pDirection _ d k) as [a b c]; cbn [dLT dEQ dGT] in *. subst a.
    destruct (pSrc _ d), (pDst _ d); try discriminate KO; injection KO as <-;
      destruct b, c; cbn; eauto; destruct NE as [NE|NE]; try discriminate NE; now destruct NE.
  - specialize (A3 ltac:(lia)). destruct (pDirection _ d k) as [a b c]; cbn [dLT dEQ dGT] in *. subst c.
    destruct (pSrc _ d), (pDst _ d); try discriminate KO; injection KO as <-;
      destruct a, b; cbn; eauto; destruct NE as [NE|NE]; try discriminate NE; now destruct NE.
Qed.
(** The distance information passed with the kinds. *)
Lemma insert_info d k u i : insertDependence _ d k = Some u -> uDist _ u = Some i ->
  iDep _ i = d /\ iLevel _ i = k.
Proof.
  unfold insertDependence. destruct (_ || _); [intros H; injection H as <-; discriminate|].
  cbv zeta. destruct (negb _); [discriminate|]. destruct (dirsEqb _ dEQonly); [discriminate|].
  intros H; injection H as <-.
  repeat match goal with |- context [if ?c then _ else _] => destruct c end;
    cbn; intro H; injection H as <-; auto.
Qed.
(** The transformed distances include the distance of the pair. *)
Lemma insert_dist d k e x y t u i : (1 <= k <= pLevels _ d)%nat ->
  truthful (pConfusedLevels _ d) d e x y -> carriedBy k x y -> kindOf d k x y = Some t ->
  oneSided d k ->
  insertDependence _ d k = Some u -> uDist _ u = Some i ->
  forall j D, (k + j <= pLevels _ d)%nat -> pDistance _ d (k + j) = Some D ->
  exists v, In v (transformed _ i (j =? 0)%nat D) /\ v e = distanceOf k x y (k + j).
Proof.
  intros K T [C1 C2] KO [N1 N2] H HI j D J HD. unfold insertDependence in H.
  destruct (pConfused _ d || (k <=? pConfusedLevels _ d)%nat) eqn:CF.
  { injection H as <-. discriminate. }
  apply orb_false_iff in CF. destruct CF as [CF LC]. apply Nat.leb_gt in LC.
  destruct T as [T|T]; [congruence|].
  destruct (T k ltac:(lia) ltac:(lia)) as [(A1 & A2 & A3) DK].
  destruct (T (k + j)%nat ltac:(lia) ltac:(lia)) as [_ DJ]. specialize (DJ D HD).
  cbv zeta in H. destruct (negb _) in H; [discriminate|].
  destruct (dirsEqb (pDirection _ d k) dEQonly) eqn:EQ; [discriminate|].
  assert (U : u = (if isOutput _ d then mkUpd _ false false true (Some (mkDist _ d k (dirsEqb (pDirection _ d k) dGTonly || dirsEqb (pDirection _ d k) dGE) false))
     else if dirsEqb (pDirection _ d k) dALL then mkUpd _ true true false (Some (mkDist _ d k false true))
     else if isFlow _ d then
       if dirsEqb (pDirection _ d k) dLTonly || dirsEqb (pDirection _ d k) dLE
       then mkUpd _ true false false (Some (mkDist _ d k false false))
       else mkUpd _ false true false (Some (mkDist _ d k true false))
     else if isAnti _ d then
       if dirsEqb (pDirection _ d k) dLTonly || dirsEqb (pDirection _ d k) dLE
       then mkUpd _ false true false (Some (mkDist _ d k false false))
       else mkUpd _ true false false (Some (mkDist _ d k true false))
     else mkUpd _ true true false (Some (mkDist _ d k false true)))) by congruence.
  clear H. unfold distanceOf. unfold dirsEqb in U. unfold dirsEqb in EQ.
  assert (KD : j = 0%nat -> D e = (y k - x k)%Z).
  { intros ->. rewrite Nat.add_0_r in *. exact DJ. }
  assert (JD : (j =? 0)%nat = true -> D e = (y k - x k)%Z).
  { intro E0. apply Nat.eqb_eq in E0. auto. }
  assert (JK : (j =? 0)%nat = true -> x (k + j)%nat = x k /\ y (k + j)%nat = y k).
  { intro E0. apply Nat.eqb_eq in E0. subst j. rewrite Nat.add_0_r. auto. }
  unfold isOutput, isFlow, isAnti in *.
  destruct (Z.ltb_spec (x k) (y k)) as [L|G].
  - specialize (A1 L). destruct (pDirection _ d k) as [a b c] eqn:DIR; cbn [dLT dEQ dGT] in *. subst a.
    destruct b, c; cbn in U, EQ; try discriminate EQ; try (now destruct N1);
    destruct (pSrc _ d), (pDst _ d); cbn in U, N2; try discriminate KO;
    try (now destruct (N2 eq_refl));
    subst u; injection HI as <-; unfold transformed; cbn [iRevert iExtend negb andb];
    try (exists D; split; [left; reflexivity|exact DJ]);
    (destruct (j =? 0)%nat;
     [exists (scMax _ (scNeg _ D) D); split; [left; reflexivity|];
      destruct (JK eq_refl) as [-> ->]; unfold scMax, scNeg; rewrite (JD eq_refl); lia
     |exists D; split; [left; reflexivity|exact DJ]]).
  - assert (G' : (x k > y k)%Z) by lia. specialize (A3 G').
    destruct (pDirection _ d k) as [a b c] eqn:DIR; cbn [dLT dEQ dGT] in *. subst c.
    destruct a, b; cbn in U, EQ; try discriminate EQ; try (now destruct N1);
    destruct (pSrc _ d), (pDst _ d); cbn in U, N2; try discriminate KO;
    try (now destruct (N2 eq_refl));
    subst u; injection HI as <-; unfold transformed; cbn [iRevert iExtend negb andb];
    try (exists (scNeg _ D); split; [left; reflexivity|unfold scNeg; rewrite DJ; lia]);
    (destruct (j =? 0)%nat;
     [exists (scMax _ (scNeg _ D) D); split; [left; reflexivity|];
      destruct (JK eq_refl) as [-> ->]; unfold scMax, scNeg; rewrite (JD eq_refl); lia
     |exists (scNeg _ D); split; [right; left; reflexivity|unfold scNeg; rewrite DJ; lia]]).
Qed.

(** ** Sets of distances *)
Lemma insertAt_length j ds (v : list scev) : (j <= length ds)%nat ->
  length (insertAt _ j ds v) = Nat.max (length ds) (S j).
Proof.
  revert ds. induction j as [|j IH]; intros [|x ds] H; cbn in *; try lia.
  rewrite IH by lia. lia.
Qed.
Lemma insertAt_same j ds (v : list scev) : (j <= length ds)%nat -> incl v (nth j (insertAt _ j ds v) []).
Proof.
  revert ds. induction j as [|j IH]; intros [|x ds] H; cbn in *; try lia.
  - apply incl_refl.
  - apply incl_appr, incl_refl.
  - apply IH. lia.
Qed.
Lemma insertAt_old j ds (v : list scev) l : incl (nth l ds []) (nth l (insertAt _ j ds v) []).
Proof.
  revert ds l. induction j as [|j IH]; intros [|x ds] [|l]; cbn; try apply incl_refl; try apply incl_nil_l.
  - apply incl_appl, incl_refl.
  - apply IH.
Qed.
Lemma insertAt_nonempty j ds (v : list scev) : v <> [] -> Forall (fun l => l <> []) ds ->
  Forall (fun l => l <> []) (insertAt _ j ds v).
Proof.
  intro V. revert ds. induction j as [|j IH]; intros [|x ds] F; cbn; auto; inversion F; subst; constructor; auto.
  destruct x; [contradiction|discriminate].
Qed.
Lemma transformed_nonempty i b D : transformed _ i b D <> [].
Proof. unfold transformed. destruct (_ && _); [discriminate|]. destruct (iRevert _ i); [discriminate|]. destruct b; discriminate. Qed.

(** The loop over levels. *)
Lemma addLevels_spec i : forall n j s, (j <= length (tDists _ s))%nat ->
  exists m ds, (j <= m <= j + n)%nat /\
  (forall l, (j <= l < m)%nat -> exists D, pDistance _ (iDep _ i) (iLevel _ i + l) = Some D
      /\ incl (transformed _ i (l =? 0)%nat D) (nth l ds [])) /\
  (forall l, incl (nth l (tDists _ s) []) (nth l ds [])) /\
  length ds = Nat.max (length (tDists _ s)) m /\
  (Forall (fun l => l <> []) (tDists _ s) -> Forall (fun l => l <> []) ds) /\
  ((m = (j + n)%nat /\ addLevels _ i j n s = mkT _ (tIs _ s) (tUnknown _ s) (tKnown _ s) ds) \/
   ((m < j + n)%nat /\ pDistance _ (iDep _ i) (iLevel _ i + m) = None /\
    addLevels _ i j n s = mkT _ (tIs _ s) (if (m =? 0)%nat then true else tUnknown _ s) (Some m) (firstn m ds))).
Proof.
  induction n as [|n IH]; intros j s L; cbn [addLevels].
  - exists j, (tDists _ s). split; [lia|]. split; [intros l H; lia|]. split; [intro; apply incl_refl|].
    split; [lia|]. split; [auto|]. left. split; [lia|]. destruct s; reflexivity.
  - destruct (pDistance _ (iDep _ i) (iLevel _ i + j)) as [D|] eqn:E.
    + set (s1 := mkT _ (tIs _ s) (tUnknown _ s) (tKnown _ s) (insertAt _ j (tDists _ s) (transformed _ i (j =? 0)%nat D))).
      assert (LL : length (tDists _ s1) = Nat.max (length (tDists _ s)) (S j)) by (apply insertAt_length; exact L).
      destruct (IH (S j) s1 ltac:(lia)) as (m & ds & M & A & B & C & N & F).
      exists m, ds. split; [lia|]. split; [|split; [|split; [|split]]].
      * intros l H. destruct (Nat.eq_dec l j) as [->|NE].
        -- exists D. split; [exact E|]. eapply incl_tran; [|apply B]. apply insertAt_same. exact L.
        -- apply A. lia.
      * intro l. eapply incl_tran; [|apply B]. apply insertAt_old.
      * rewrite C, LL. lia.
      * intro P. apply N. apply insertAt_nonempty; [apply transformed_nonempty|exact P].
      * destruct F as [[F1 F2]|[F1 F2]]; [left|right]; (split; [lia|exact F2]).
    + exists j, (tDists _ s). split; [lia|]. split; [intros l H; lia|]. split; [intro; apply incl_refl|].
      split; [lia|]. split; [auto|]. right. split; [lia|]. split; [exact E|reflexivity].
Qed.

Lemma join_length n (a b : list (list scev)) : length (joinLevels _ n a b) = Nat.max (length a) n.
Proof.
  revert a b. induction n as [|n IH]; intros a b; cbn; [lia|]. rewrite IH. destruct a; cbn; lia.
Qed.
Lemma join_left n (a b : list (list scev)) l : incl (nth l a []) (nth l (joinLevels _ n a b) []).
Proof.
  revert a b l. induction n as [|n IH]; intros a b l; cbn; [apply incl_refl|].
  destruct l as [|l].
  - destruct a; cbn; [apply incl_nil_l|apply incl_appl, incl_refl].
  - destruct a as [|x a]; cbn; [apply incl_nil_l|apply IH].
Qed.
Lemma join_right n (a b : list (list scev)) l : (l < n)%nat -> incl (nth l b []) (nth l (joinLevels _ n a b) []).
Proof.
  revert a b l. induction n as [|n IH]; intros a b l L; cbn; [lia|].
  destruct l as [|l].
  - destruct b; cbn; [apply incl_nil_l|apply incl_appr, incl_refl].
  - destruct b as [|x b]; cbn; [destruct l; apply incl_nil_l|apply IH; lia].
Qed.
Lemma join_nonempty n (a b : list (list scev)) : (n <= length b)%nat ->
  Forall (fun l => l <> []) a -> Forall (fun l => l <> []) b -> Forall (fun l => l <> []) (joinLevels _ n a b).
Proof.
  revert a b. induction n as [|n IH]; intros a b L FA FB; cbn; [exact FA|].
  destruct b as [|y b]; [cbn in L; lia|]. inversion FB; subst. constructor.
  - cbn. destruct (hd [] a), y; cbn; congruence.
  - apply IH; [cbn [length tl] in *; lia| |assumption]. destruct a; [constructor|inversion FA; assumption].
Qed.

(** ** Invariant *)
Definition below (kn : option nat) (l : nat) : Prop := match kn with Some m => (l < m)%nat | None => True end.
Definition covers s (k : nat) i : Prop :=
  forall l, (k + l <= pLevels _ (iDep _ i))%nat -> below (tKnown _ s) l ->
  (l < length (tDists _ s))%nat /\ exists D, pDistance _ (iDep _ i) (k + l) = Some D /\
  incl (transformed _ i (l =? 0)%nat D) (nth l (tDists _ s) []).
(* kinds set by the inserted dependence *)
Definition noted d (k : nat) (t : kind) (i : option (distInfo Env)) : Prop :=
  exists u, insertDependence _ d k = Some u /\ uSet _ u t = true /\ uDist _ u = i.
Record good (k : nat) h t s : Prop := {
  g_new : tIs _ s = false -> s = tNew _;
  g_set : tIs _ s = true -> tUnknown _ s = false ->
          tDists _ s <> [] /\ tKnown _ s <> Some 0%nat;
  g_sets : Forall (fun l => l <> []) (tDists _ s);
  g_is : forall d (i : option (distInfo Env)), recorded h d -> noted d k t i -> tIs _ s = true;
  g_unk : forall d, recorded h d -> noted d k t None -> tUnknown _ s = true;
  g_cov : tUnknown _ s = false -> forall d i, recorded h d -> noted d k t (Some i) -> covers s k i;
  g_len : noMerge h -> tUnknown _ s = false -> forall m, tKnown _ s = Some m -> (length (tDists _ s) <= m)%nat
}.

Lemma get_update u F (m : imp Env) t : get _ (update _ u F m) t = if uSet _ u t then updateOne _ F (uDist _ u) (get _ m t) else get _ m t.
Proof. destruct t; reflexivity. Qed.
Lemma get_merge (m m' : imp Env) t : get _ (merge _ m m') t = mergeOne _ (get _ m t) (get _ m' t).
Proof. destruct t; reflexivity. Qed.

Lemma good_update k h d u t s : (1 <= k)%nat -> (k <= pLevels _ d)%nat -> good k h t s ->
  insertDependence _ d k = Some u -> uSet _ u t = true ->
  good k (HInsert _ h d) t (updateOne _ false (uDist _ u) s).
Proof.
  intros K KL G HU US. unfold updateOne. rewrite orb_false_r.
  assert (UNK : forall s0, s0 = mkT Env true true (Some 0%nat) [] -> good k (HInsert _ h d) t s0).
  { intros s0 ->. split; cbn; try congruence; try discriminate. constructor. }
  destruct (uDist _ u) as [i|] eqn:UI; [|apply UNK; reflexivity].
  destruct (tUnknown _ s) eqn:TU; [apply UNK; reflexivity|].
  destruct (insert_info _ _ _ _ HU UI) as [ID IL].
  cbv zeta. rewrite ID, IL.
  set (DL := match tKnown _ s with
             | Some k0 => if (k + k0 <? pLevels _ d + 1)%nat then (k + k0)%nat else (pLevels _ d + 1)%nat
             | None => (pLevels _ d + 1)%nat end).
  assert (DLB : forall l, (k + l <= pLevels _ d)%nat -> below (tKnown _ s) l -> (l < DL - k)%nat).
  { intros l L B. unfold DL, below in *. destruct (tKnown _ s) as [m|]; [|lia].
    destruct (Nat.ltb_spec (k + m) (pLevels _ d + 1)); lia. }
  assert (DLP : (0 < DL - k)%nat).
  { apply DLB; [lia|]. unfold below. destruct (tKnown _ s) as [m|] eqn:EK; [|exact I].
    destruct (tIs _ s) eqn:TI.
    - destruct (g_set _ _ _ _ G TI TU) as [_ N]. destruct m; [congruence|lia].
    - rewrite (g_new _ _ _ _ G TI) in EK. discriminate. }
  assert (DLK : forall m, tKnown _ s = Some m -> (DL - k <= m)%nat).
  { intros m EK. unfold DL. rewrite EK. destruct (Nat.ltb_spec (k + m) (pLevels _ d + 1)); lia. }
  set (s0 := mkT _ true false (tKnown _ s) (tDists _ s)).
  destruct (addLevels_spec i (DL - k) 0 s0 ltac:(lia)) as (m & ds & M & A & B & C & N & F).
  cbn [tDists s0] in B, C, N. rewrite ID, IL in A, F.
  cbn [tIs tUnknown tKnown s0] in F. fold s0.
  destruct F as [[F1 F2]|(F1 & F2 & F3)].
  - rewrite F2. cbn in F1. subst m. split; cbn [tIs tUnknown tKnown tDists].
    + discriminate.
    + intros _ _. split.
      * intro E. rewrite E in C. cbn in C. lia.
      * destruct (tIs _ s) eqn:TI; [apply (g_set _ _ _ _ G TI TU)|rewrite (g_new _ _ _ _ G TI); discriminate].
    + apply N. apply (g_sets _ _ _ _ G).
    + reflexivity.
    + intros d' [R|R] NT.
      * rewrite (g_unk _ _ _ _ G d' R NT) in TU. discriminate.
      * subst d'. destruct NT as (u' & E1 & _ & E2). assert (u' = u) by congruence. subst u'. congruence.
    + intros _ d' i' [R|R] NT l L BL; cbn [tKnown tDists] in *.
      * destruct (g_cov _ _ _ _ G TU d' i' R NT l L BL) as (P1 & D & P2 & P3).
        split; [rewrite C; lia|]. exists D. split; [exact P2|]. eapply incl_tran; [exact P3|apply B].
      * subst d'. destruct NT as (u' & E1 & _ & E2). assert (u' = u) by congruence. subst u'.
        assert (i' = i) by congruence. subst i'. rewrite ID in L. pose proof (DLB l L BL) as LL.
        split; [rewrite C; lia|]. destruct (A l ltac:(lia)) as (D & P1 & P2). exists D. rewrite ID. auto.
    + intros NM _ m EK. rewrite C. pose proof (g_len _ _ _ _ G NM TU m EK).
      specialize (DLK m EK). lia.
  - rewrite F3. assert (FL : length (firstn m ds) = m) by (rewrite firstn_length, C; lia).
    assert (FN : forall l, (l < m)%nat -> nth l (firstn m ds) [] = nth l ds []).
    { intros l L. rewrite <- (firstn_skipn m ds) at 2. rewrite app_nth1; [reflexivity|lia]. }
    assert (KM : forall l, below (Some m) l -> below (tKnown _ s) l).
    { intros l L. unfold below in *. destruct (tKnown _ s) as [m'|]; [|exact I]. specialize (DLK m' eq_refl). lia. }
    destruct (Nat.eqb_spec m 0) as [M0|M0].
    + apply UNK. subst m. cbn. reflexivity.
    + split; cbn [tIs tUnknown tKnown tDists].
      * discriminate.
      * intros _ _. split; [|congruence]. intro E. rewrite E in FL. cbn in FL. lia.
      * apply Forall_forall. intros l IN. specialize (N (g_sets _ _ _ _ G)).
        rewrite Forall_forall in N. apply N. rewrite <- (firstn_skipn m ds). apply in_or_app. left. exact IN.
      * reflexivity.
      * intros d' [R|R] NT.
        -- rewrite (g_unk _ _ _ _ G d' R NT) in TU. discriminate.
        -- subst d'. destruct NT as (u' & E1 & _ & E2). assert (u' = u) by congruence. subst u'. congruence.
      * intros _ d' i' [R|R] NT l L BL; cbn [tKnown tDists] in *.
        -- destruct (g_cov _ _ _ _ G TU d' i' R NT l L (KM l BL)) as (P1 & D & P2 & P3).
           split; [rewrite FL; exact BL|]. exists D. split; [exact P2|]. rewrite FN by exact BL.
           eapply incl_tran; [exact P3|apply B].
        -- subst d'. destruct NT as (u' & E1 & _ & E2). assert (u' = u) by congruence. subst u'.
           assert (i' = i) by congruence. subst i'.
           split; [rewrite FL; exact BL|]. destruct (A l ltac:(unfold below in BL; lia)) as (D & P1 & P2).
           exists D. rewrite ID, FN by exact BL. auto.
      * intros _ _ m' E. injection E as <-. lia.
Qed.

(** Depths of dependences are in range. *)
Fixpoint inRange (k : nat) h : Prop :=
  match h with
  | HNew _ => True
  | HInsert _ h d => inRange k h /\ (k <= pLevels _ d)%nat
  | HAssume _ h => inRange k h
  | HMerge _ h from => inRange k h /\ inRange k from
  end.
Lemma run_good k h t : (1 <= k)%nat -> inRange k h -> good k h t (get _ (run _ k h) t).
Proof.
  intro K. induction h as [|h IH d|h IH|h IH f IHf]; cbn [run inRange]; intro R.
  - destruct t; split; cbn; try congruence; try contradiction; try (constructor); discriminate.
  - destruct R as [R KL]. specialize (IH R).
    destruct (insertDependence _ d k) as [u|] eqn:HU.
    + rewrite get_update. destruct (uSet _ u t) eqn:US; [eapply good_update; eassumption|].
      destruct IH as [A B C D E F G]. split; auto.
      * intros d' i [RR|RR] NT; [eauto|]. subst d'. destruct NT as (u' & E1 & E2 & _). congruence.
      * intros d' [RR|RR] NT; [eauto|]. subst d'. destruct NT as (u' & E1 & E2 & _). congruence.
      * intros TU d' i [RR|RR] NT; [eauto|]. subst d'. destruct NT as (u' & E1 & E2 & _). congruence.
    + destruct IH as [A B C D E F G]. split; auto.
      * intros d' i [RR|RR] NT; [eauto|]. subst d'. destruct NT as (u' & E1 & E2 & _). congruence.
      * intros d' [RR|RR] NT; [eauto|]. subst d'. destruct NT as (u' & E1 & E2 & _). congruence.
      * intros TU d' i [RR|RR] NT; [eauto|]. subst d'. destruct NT as (u' & E1 & E2 & _). congruence.
  - rewrite get_update. cbn [uDist]. assert (US : uSet _ (mkUpd Env true true true None) t = true) by (destruct t; reflexivity).
    rewrite US. unfold updateOne. split; cbn; try congruence; try discriminate. constructor.
  - destruct R as [R1 R2]. specialize (IH R1). specialize (IHf R2). rewrite get_merge.
    set (s := get _ (run _ k h) t) in *. set (f' := get _ (run _ k f) t) in *.
    unfold mergeOne. destruct (tIs _ f') eqn:TF; cbn [negb].
    + cbv zeta. destruct (tUnknown _ s || tUnknown _ f') eqn:TU.
      { split; cbn; try congruence; try discriminate; try contradiction. constructor. }
      apply orb_false_iff in TU. destruct TU as [US UF].
      destruct (g_set _ _ _ _ IHf TF UF) as [NF KF].
      set (kn := match tKnown _ f' with
                 | Some a => match tKnown _ s with Some b => Some (Nat.min a b) | None => Some a end
                 | None => tKnown _ s end).
      set (ML := match kn with Some k0 => Nat.min k0 (length (tDists _ f')) | None => length (tDists _ f') end).
      assert (KN0 : kn <> Some 0%nat).
      { assert (SK : tKnown _ s <> Some 0%nat).
        { destruct (tIs _ s) eqn:TI; [apply (g_set _ _ _ _ IH TI US)|rewrite (g_new _ _ _ _ IH TI); discriminate]. }
        unfold kn. destruct (tKnown _ f') as [a|]; [|exact SK]. destruct (tKnown _ s) as [b|]; [|exact KF].
        intro E. assert (E2 : Nat.min a b = 0%nat) by congruence.
        assert (a = 0%nat \/ b = 0%nat) as [->| ->] by lia; congruence. }
      assert (BL : forall l, below kn l -> below (tKnown _ s) l /\ below (tKnown _ f') l).
      { intros l. unfold kn, below. destruct (tKnown _ f') as [a|], (tKnown _ s) as [b|]; try tauto; lia. }
      assert (LF : (0 < length (tDists _ f'))%nat) by (destruct (tDists _ f'); [congruence|cbn; lia]).
      assert (ML0 : (0 < ML <= length (tDists _ f'))%nat).
      { unfold ML. destruct kn as [[|m]|]; [congruence|lia|lia]. }
      split; cbn [tIs tUnknown tKnown tDists].
      * discriminate.
      * intros _ _. split; [|exact KN0]. intro E. apply (f_equal (@length _)) in E. rewrite join_length in E. cbn in E. lia.
      * apply join_nonempty; [lia|apply (g_sets _ _ _ _ IH)|apply (g_sets _ _ _ _ IHf)].
      * reflexivity.
      * intros d [RR|RR] NT; [rewrite (g_unk _ _ _ _ IH d RR NT) in US|rewrite (g_unk _ _ _ _ IHf d RR NT) in UF]; discriminate.
      * intros _ d i [RR|RR] NT l L B; cbn [tKnown tDists] in *; destruct (BL l B) as [B1 B2].
        -- destruct (g_cov _ _ _ _ IH US d i RR NT l L B1) as (P1 & D & P2 & P3).
           split; [rewrite join_length; lia|]. exists D. split; [exact P2|].
           eapply incl_tran; [exact P3|apply join_left].
        -- destruct (g_cov _ _ _ _ IHf UF d i RR NT l L B2) as (P1 & D & P2 & P3).
           assert (LM : (l < ML)%nat). { unfold ML, below in *. destruct kn; lia. }
           split; [rewrite join_length; lia|]. exists D. split; [exact P2|].
           eapply incl_tran; [exact P3|apply join_right; exact LM].
      * intros [].
    + assert (NN : forall d (i : option (distInfo Env)), recorded f d -> ~ noted d k t i).
      { intros d i RR NT. rewrite (g_is _ _ _ _ IHf d i RR NT) in TF. discriminate. }
      destruct IH as [A B C D E F G]. split; auto.
      * intros d i [RR|RR] NT; [eauto|]. destruct (NN d _ RR NT).
      * intros d [RR|RR] NT; [eauto|]. destruct (NN d _ RR NT).
      * intros TU d i [RR|RR] NT; [eauto|]. destruct (NN d _ RR NT).
      * intros [].
Qed.

(** ** Summary *)
Section U.
Hypothesis B0 : (0 <= Bits)%Z.
Lemma fold_umin l : forall (x v : scev) e, v = x \/ In v l ->
  (uword Bits (fold_left (scUMin _ Bits) l x e) <= uword Bits (v e))%Z.
Proof.
  induction l as [|y l IH]; intros x v e H; cbn [fold_left].
  - destruct H as [->|[]]. lia.
  - assert (M : (uword Bits (scUMin _ Bits x y e) <= uword Bits (x e) /\ uword Bits (scUMin _ Bits x y e) <= uword Bits (y e))%Z).
    { unfold scUMin. destruct (Z.leb_spec (uword Bits (x e)) (uword Bits (y e))); lia. }
    pose proof (IH (scUMin _ Bits x y) (scUMin _ Bits x y) e (or_introl eq_refl)) as P.
    destruct H as [->|[->|H]]; [lia|lia|]. apply IH. auto.
Qed.
Lemma fold_umax l : forall (x v : scev) e, v = x \/ In v l ->
  (uword Bits (v e) <= uword Bits (fold_left (scUMax _ Bits) l x e))%Z.
Proof.
  induction l as [|y l IH]; intros x v e H; cbn [fold_left].
  - destruct H as [->|[]]. lia.
  - assert (M : (uword Bits (x e) <= uword Bits (scUMax _ Bits x y e) /\ uword Bits (y e) <= uword Bits (scUMax _ Bits x y e))%Z).
    { unfold scUMax. destruct (Z.leb_spec (uword Bits (x e)) (uword Bits (y e))); lia. }
    pose proof (IH (scUMax _ Bits x y) (scUMax _ Bits x y) e (or_introl eq_refl)) as P.
    destruct H as [->|[->|H]]; [lia|lia|]. apply IH. auto.
Qed.
End U.
Lemma fold_smin l : forall (x v : scev) e, v = x \/ In v l -> (fold_left (scMin _) l x e <= v e)%Z.
Proof.
  induction l as [|y l IH]; intros x v e H; cbn [fold_left].
  - destruct H as [->|[]]. lia.
  - pose proof (IH (scMin _ x y) (scMin _ x y) e (or_introl eq_refl)) as P. change (scMin _ x y e) with (Z.min (x e) (y e)) in P.
    destruct H as [->|[->|H]]; [lia|lia|]. apply IH. auto.
Qed.
Lemma fold_smax l : forall (x v : scev) e, v = x \/ In v l -> (v e <= fold_left (scMax _) l x e)%Z.
Proof.
  induction l as [|y l IH]; intros x v e H; cbn [fold_left].
  - destruct H as [->|[]]. lia.
  - pose proof (IH (scMax _ x y) (scMax _ x y) e (or_introl eq_refl)) as P. change (scMax _ x y e) with (Z.max (x e) (y e)) in P.
    destruct H as [->|[->|H]]; [lia|lia|]. apply IH. auto.
Qed.
Lemma fold1_In (f : scev -> scev -> scev) (l : list scev) a v : fold1 _ f l = Some a -> In v l ->
  exists x r, l = x :: r /\ a = fold_left f r x /\ (v = x \/ In v r).
Proof. destruct l as [|x r]; [discriminate|]. cbn. intros H [E|I]; injection H as <-; eauto 6. Qed.
Lemma summarizeRest_nth (ds : list (list scev)) : forall b l lo hi v e, summarizeRest _ ds = Some b ->
  nth_error b l = Some (lo, hi) -> In v (nth l ds []) -> (lo e <= v e <= hi e)%Z.
Proof.
  induction ds as [|s ds IH]; intros b l lo hi v e H E I; cbn in *.
  - destruct l; destruct I.
  - destruct (fold1 _ (scMin _) s) as [a|] eqn:E1; [|discriminate].
    destruct (fold1 _ (scMax _) s) as [c|] eqn:E2; [|discriminate].
    destruct (summarizeRest _ ds) as [r|] eqn:E3; [|discriminate]. injection H as <-.
    destruct l as [|l]; cbn in E.
    + assert (lo = a /\ hi = c) as [-> ->] by (split; congruence).
      destruct (fold1_In _ _ _ _ E1 I) as (x & r' & -> & -> & H1).
      destruct (fold1_In _ _ _ _ E2 I) as (x2 & r2 & EQ & -> & H2). injection EQ as <- <-.
      split; [apply fold_smin|apply fold_smax]; assumption.
    + exact (IH r l lo hi v e eq_refl E I).
Qed.
Lemma summarizeRest_length (ds : list (list scev)) b : summarizeRest _ ds = Some b -> length b = length ds.
Proof.
  revert b. induction ds as [|s ds IH]; intros b H; cbn in H; [injection H as <-; reflexivity|].
  destruct (fold1 _ (scMin _) s); [|discriminate]. destruct (fold1 _ (scMax _) s); [|discriminate].
  destruct (summarizeRest _ ds) as [r|]; [|discriminate]. injection H as <-. cbn. rewrite (IH r eq_refl). reflexivity.
Qed.
Lemma summarizeRest_total (ds : list (list scev)) : Forall (fun l => l <> []) ds -> exists b, summarizeRest Env ds = Some b.
Proof.
  induction 1 as [|s ds N F (b & IH)]; cbn; [eauto|]. rewrite IH.
  destruct s as [|x s]; [contradiction|]. cbn. eauto.
Qed.
Lemma summarize_total k h t s : good k h t s -> tIs _ s = true -> exists r, summarize _ Bits s = Some r.
Proof.
  intros G TI. unfold summarize. destruct (tUnknown _ s) eqn:TU; [eauto|].
  destruct (g_set _ _ _ _ G TI TU) as [N _]. pose proof (g_sets _ _ _ _ G) as F.
  destruct (tDists _ s) as [|l ds]; [contradiction|]. inversion F as [|? ? NL FD]; subst.
  destruct (summarizeRest_total ds FD) as (b & ->). destruct l as [|x l]; [contradiction|]. cbn. eauto.
Qed.
Lemma inRange_all k h : (forall d, recorded h d -> (k <= pLevels _ d)%nat) -> inRange k h.
Proof. induction h; cbn; intros H; auto. Qed.
Lemma update_unknown F (i : option (distInfo Env)) s : tIs Env s = true -> tUnknown _ s = true ->
  tIs _ (updateOne _ F i s) = true /\ tUnknown _ (updateOne _ F i s) = true.
Proof. intros A B. unfold updateOne. rewrite B. destruct i; auto. Qed.
Lemma assumed_unknown k h t : assumed h ->
  tIs _ (get _ (run _ k h) t) = true /\ tUnknown _ (get _ (run _ k h) t) = true.
Proof.
  induction h as [|h IH d|h IH|h IH f IHf]; cbn [assumed run]; intro A.
  - contradiction.
  - destruct (insertDependence _ d k) as [u|]; [|auto]. rewrite get_update.
    destruct (uSet _ u t); [|auto]. destruct (IH A). apply update_unknown; assumption.
  - destruct t; split; reflexivity.
  - rewrite get_merge. unfold mergeOne. destruct A as [A|A].
    + destruct (IH A) as [A1 A2]. destruct (negb _); [auto|]. cbv zeta. rewrite A2. auto.
    + destruct (IHf A) as [A1 A2]. rewrite A1. cbn [negb]. cbv zeta. rewrite A2, orb_true_r. auto.
Qed.
End P.
Lemma bounds_core : forall Env Bits, (0 <= Bits)%Z ->
  forall k (h : history Env), (1 <= k)%nat ->
  (forall d', recorded h d' -> (k <= pLevels _ d')%nat) ->
  forall t b, summarize _ Bits (get _ (run _ k h) t) = Some (Some b) ->
  forall d e x y, recorded h d -> truthful (pConfusedLevels _ d) d e x y ->
  carriedBy k x y -> kindOf d k x y = Some t -> oneSided d k ->
  forall j lo hi, nth_error b j = Some (lo, hi) -> (k + j <= pLevels _ d)%nat ->
  below (tKnown _ (get _ (run _ k h) t)) j ->
  (exists D, pDistance _ d (k + j) = Some D) /\
  (j = 0%nat -> (0 <= distanceOf k x y k < 2 ^ Bits)%Z ->
     (uword Bits (lo e) <= distanceOf k x y k <= uword Bits (hi e))%Z) /\
  (j <> 0%nat -> (lo e <= distanceOf k x y (k + j) <= hi e)%Z).
Proof.
  intros Env Bits B0 k h K R t b SB d e x y RD T C KO OS j lo hi HB J BK.
  pose proof (run_good k h t K (inRange_all _ _ R)) as G.
  set (s := get _ (run _ k h) t) in *.
  destruct (insert_sets d k e x y t) as (u & HU & US); auto; [left; apply OS|].
  unfold summarize in SB. destruct (tUnknown _ s) eqn:TU; [discriminate|].
  destruct (uDist _ u) as [i|] eqn:UI.
  2: { rewrite (g_unk _ _ _ _ G d RD) in TU; [discriminate|]. exists u. auto. }
  assert (NT : noted d k t (Some i)) by (exists u; auto).
  destruct (insert_info _ _ _ _ HU UI) as [ID IL].
  pose proof (g_cov _ _ _ _ G TU d i RD NT) as CV.
  rewrite <- ID in J. destruct (CV j J BK) as (_ & D & PD & IN). rewrite ID in J, PD.
  destruct (insert_dist d k e x y t u i ltac:(split; [lia|apply R; exact RD]) T C KO OS HU UI j D J PD)
    as (v & VI & VE).
  specialize (IN v VI). split; [eauto|].
  destruct (tDists _ s) as [|l ds] eqn:ED; [discriminate|].
  destruct (fold1 _ (scUMin _ Bits) l) as [a|] eqn:E1; [|discriminate].
  destruct (fold1 _ (scUMax _ Bits) l) as [c|] eqn:E2; [|discriminate].
  destruct (summarizeRest _ ds) as [r|] eqn:E3; [|discriminate].
  assert (b = (a, c) :: r) by congruence. subst b.
  split.
  - intros -> RNG. rewrite Nat.add_0_r in VE. cbn [nth_error nth] in *.
    assert (lo = a /\ hi = c) as [-> ->] by (split; congruence).
    assert (VW : uword Bits (v e) = distanceOf k x y k).
    { rewrite VE. unfold uword. apply Z.mod_small. exact RNG. }
    rewrite <- VW.
    destruct (fold1_In _ _ _ _ E1 IN) as (x1 & r1 & -> & -> & H1).
    destruct (fold1_In _ _ _ _ E2 IN) as (x2 & r2 & EQ & -> & H2). injection EQ as <- <-.
    split; [apply fold_umin|apply fold_umax]; assumption.
  - intro JN. destruct j as [|j]; [congruence|]. cbn [nth_error nth] in *. rewrite <- VE.
    exact (summarizeRest_nth _ _ _ _ _ _ e E3 HB IN).
Qed.
