(** Proofs about parallel nests with regular dependencies. *)
From Coq Require Import PeanoNat Bool List ZArith Lia.
From Verif Require Import AcrossModel AcrossSpec.
Import ListNotations.

Lemma mem_In v vs : mem v vs = true <-> In v vs.
Proof.
  unfold mem. rewrite existsb_exists. split.
  - intros (u & H & E). apply Nat.eqb_eq in E. now subst.
  - intro H. exists v. split; [exact H|apply Nat.eqb_refl].
Qed.
Lemma sameSet_iff a b : sameSet a b = true -> forall v, In v a <-> In v b.
Proof.
  unfold sameSet. rewrite andb_true_iff, !forallb_forall. intros [A B] v.
  split; intro H; apply mem_In; [apply A|apply B]; exact H.
Qed.
Lemma erase_iff v u vs : In v (erase u vs) <-> In v vs /\ v <> u.
Proof.
  unfold erase. rewrite filter_In. destruct (Nat.eqb_spec v u) as [->|N]; cbn; split; intros [A B]; split; auto;
    try discriminate; try congruence.
Qed.

Lemma regular_same l x y ok : regular l x = (y, ok) -> xInduct y = xInduct x /\ xPrivate y = xPrivate x /\
  xReduct y = xReduct x /\ xFinal y = xFinal x.
Proof.
  unfold regular. destruct (vDeps l); [intro E; injection E as <- <-; auto|]. destruct (vStep l) as [s|]; [|intro E; injection E as <- <-; auto].
  destruct (processDeps _ _ _ _ _ _) as [m p]. destruct (Nat.eqb p 0); intro E; injection E as <- <-; auto.
Qed.
Lemma regular_step l x y : regular l x = (y, true) -> vDeps l <> [] -> vStep l <> None.
Proof.
  unfold regular. destruct (vDeps l); [intros _ N; now destruct N|]. destruct (vStep l); [discriminate|intro E; discriminate].
Qed.
Lemma addLoop_same l x : xInduct (addLoop l x) = xInduct x ++ [(vId l, vInduct l)] /\
  xPrivate (addLoop l x) = xPrivate x /\ xReduct (addLoop l x) = xReduct x /\ xAcross (addLoop l x) = xAcross x /\
  xDepth (addLoop l x) = xDepth x /\
  (xFinal (addLoop l x) = false -> xFinal x = false /\ vPerfect l = true /\
     (xDepth x = 0 \/ S (length (xInduct x)) <> xDepth x)).
Proof.
  unfold addLoop. cbn [xInduct xFinal xDepth].
  destruct (negb (xFinal x) && _) eqn:E; cbn [finalize xInduct xPrivate xReduct xAcross xDepth xFinal].
  - split; [reflexivity|]. split; [reflexivity|]. split; [reflexivity|]. split; [reflexivity|]. split; [reflexivity|].
    intro Q. discriminate.
  - split; [reflexivity|]. split; [reflexivity|]. split; [reflexivity|]. split; [reflexivity|]. split; [reflexivity|].
    intro H. split; [exact H|]. split.
    + rewrite H in E. cbn in E. apply orb_false_iff in E. destruct E as [E _]. now apply negb_false_iff in E.
    + rewrite H in E. cbn in E. apply orb_false_iff in E. destruct E as [_ E]. apply andb_false_iff in E.
      destruct E as [E|E].
      * left. apply negb_false_iff in E. now apply Nat.eqb_eq in E.
      * right. rewrite app_length in E. cbn in E. apply Nat.eqb_neq in E. lia.
Qed.

(** Accepted loops. *)
Inductive Run : list level -> directive -> Prop :=
| run_start l x y : vOk l = true -> regular l (Directive [] (vPrivate l) (vReduct l) [] 0 false) = (x, true) ->
    (y = x \/ y = finalize x) -> Run [l] (addLoop l y)
| run_add pre l x y : Run pre x -> xFinal x = false -> vOk l = true -> vHost l = false ->
    sameSet (vPrivate l) (erase (vInduct l) (xPrivate x)) = true -> vReduct l = xReduct x ->
    regular l (setPrivate x (erase (vInduct l) (xPrivate x))) = (y, true) -> Run (pre ++ [l]) (addLoop l y).
(** A rejected loop. *)
Definition rejected (l : level) (x y : directive) : Prop :=
  y = exploitInner l x /\ xInduct y = xInduct x /\ xFinal y = true /\
  (xAcross y = xAcross x \/ exists z, vOk l = true /\ regular l (setPrivate x (erase (vInduct l) (xPrivate x))) = (z, false) /\ xAcross y = xAcross z).
Lemma exploit_cases l x : xFinal x = false ->
  (exists y, vOk l = true /\ vHost l = false /\
    sameSet (vPrivate l) (erase (vInduct l) (xPrivate x)) = true /\ vReduct l = xReduct x /\
    regular l (setPrivate x (erase (vInduct l) (xPrivate x))) = (y, true) /\ exploitInner l x = addLoop l y) \/
  rejected l x (exploitInner l x).
Proof.
  intro F. unfold rejected. unfold exploitInner. destruct (vOk l) eqn:EO; [|right; auto].
  cbn [setPrivate xPrivate xReduct].
  destruct (vHost l || _ || _) eqn:E.
  { right. split; [reflexivity|]. auto. }
  apply orb_false_iff in E. destruct E as [E E3]. apply orb_false_iff in E. destruct E as [E1 E2].
  apply negb_false_iff in E2, E3. apply Nat.eqb_eq in E3.
  destruct (regular l _) as [y ok] eqn:ER. pose proof (regular_same _ _ _ _ ER) as (S1 & _).
  destruct ok.
  - left. exists y. auto 10.
  - right. split; [reflexivity|]. cbn [finalize xInduct xFinal xAcross]. split; [exact S1|]. split; [reflexivity|]. right. exists y. auto.
Qed.
Lemma inner_run : forall ls pre x, Run pre x ->
  exists n y, Run (pre ++ firstn n ls) y /\ n <= length ls /\
    (inner ls x = y \/ exists l, nth_error ls n = Some l /\ xFinal y = false /\ rejected l y (inner ls x)).
Proof.
  induction ls as [|l ls IH]; intros pre x R; cbn [inner].
  - exists 0, x. cbn. rewrite app_nil_r. auto.
  - destruct (xFinal x) eqn:F.
    + exists 0, x. cbn. rewrite app_nil_r. split; [exact R|]. split; [lia|auto].
    + destruct (exploit_cases l x F) as [(y & E1 & E2 & E3 & E4 & E5 & E6)|RJ].
      * pose proof (run_add pre l x y R F E1 E2 E3 E4 E5) as R'. rewrite <- E6 in R'.
        destruct (IH _ _ R') as (n & z & Z1 & Z2 & Z3). exists (S n), z. cbn [firstn length nth_error].
        rewrite <- app_assoc in Z1. split; [exact Z1|]. split; [lia|exact Z3].
      * exists 0, x. cbn [firstn nth_error]. rewrite app_nil_r. split; [exact R|]. split; [lia|].
        right. exists l. split; [reflexivity|]. split; [exact F|].
        destruct RJ as (J1 & J2 & J3 & J4). assert (EI : inner ls (exploitInner l x) = exploitInner l x).
        { destruct ls; cbn [inner]; [reflexivity|]. now rewrite J3. }
        rewrite EI. unfold rejected. auto.
Qed.
Lemma parallelize_run ls x : parallelize ls = Some x ->
  exists n y, 1 <= n <= length ls /\ Run (firstn n ls) y /\
    (x = y \/ exists l, nth_error ls n = Some l /\ xFinal y = false /\ rejected l y x).
Proof.
  unfold parallelize. destruct ls as [|l ls]; [discriminate|]. unfold exploitOuter.
  destruct (vOk l) eqn:EO; [|discriminate]. destruct (regular l _) as [z ok] eqn:ER. destruct ok; [|discriminate].
  intro E. injection E as <-.
  match goal with |- context [addLoop l ?y] => assert (R : Run [l] (addLoop l y)) end.
  { apply (run_start l z); auto. destruct (_ && _); auto. }
  destruct (inner_run ls [l] _ R) as (n & y & R1 & R2 & R3). exists (S n), y. cbn [length firstn nth_error].
  split; [lia|]. split; [exact R1|]. destruct R3 as [R3|R3]; auto.
Qed.
Lemma run_induct pre x : Run pre x -> xInduct x = inducts pre.
Proof.
  intro R. induction R as [l x y O ER Y|pre l x y R IH F O H S D ER].
  - destruct (addLoop_same l y) as (A & _). rewrite A. destruct (regular_same _ _ _ _ ER) as (B & _).
    destruct Y as [->| ->]; cbn [finalize xInduct]; now rewrite B.
  - destruct (addLoop_same l y) as (A & _). rewrite A. destruct (regular_same _ _ _ _ ER) as (B & _).
    rewrite B. cbn [setPrivate xInduct]. rewrite IH. unfold inducts. now rewrite map_app.
Qed.
Lemma parallelize_induct ls x n y : Run (firstn n ls) y ->
  (x = y \/ exists l, nth_error ls n = Some l /\ xFinal y = false /\ rejected l y x) -> xInduct x = inducts (firstn n ls).
Proof.
  intros R Q. rewrite <- (run_induct _ _ R). destruct Q as [->|(l & _ & _ & (_ & E & _))]; [reflexivity|exact E].
Qed.

(** The structure of a nest. *)
Lemma nth_snoc {A} (pre : list A) l k a : nth_error (pre ++ [l]) k = Some a ->
  nth_error pre k = Some a /\ k < length pre \/ k = length pre /\ a = l.
Proof.
  intro H. destruct (Nat.lt_ge_cases k (length pre)) as [L|L].
  - rewrite nth_error_app1 in H by exact L. auto.
  - rewrite nth_error_app2 in H by exact L. right. destruct (k - length pre) as [|m] eqn:E.
    + cbn in H. injection H as <-. split; [lia|reflexivity].
    + cbn in H. destruct m; discriminate.
Qed.
Lemma run_ne pre x : Run pre x -> pre <> [].
Proof. intros [] Q; [discriminate|]. destruct pre0; discriminate. Qed.
Lemma run_structure pre x : Run pre x -> forall l0, hd_error pre = Some l0 ->
  xReduct x = vReduct l0 /\
  (forall v, In v (xPrivate x) <-> In v (vPrivate l0) /\ ~ In v (map vInduct (tl pre))) /\
  (xFinal x = false -> forall l, In l pre -> vPerfect l = true) /\
  forall k l, nth_error pre k = Some l ->
    vOk l = true /\ (S k < length pre -> vPerfect l = true) /\ (vDeps l <> [] -> vStep l <> None) /\
    (1 <= k -> vHost l = false) /\ vReduct l = vReduct l0 /\
    forall v, In v (vPrivate l) <-> In v (vPrivate l0) /\ ~ In v (map vInduct (firstn k (tl pre))).
Proof.
  intro R. induction R as [l x y O ER Y|pre l x y R IH F O H S D ER]; intros l0 E0.
  - cbn in E0. injection E0 as <-. destruct (addLoop_same l y) as (_ & A2 & A3 & _ & _ & A6).
    destruct (regular_same _ _ _ _ ER) as (B1 & B2 & B3 & B4). cbn in B1, B2, B3, B4.
    assert (YP : xPrivate y = vPrivate l /\ xReduct y = vReduct l).
    { destruct Y as [->| ->]; cbn [finalize xPrivate xReduct]; auto. }
    destruct YP as [YP YR]. rewrite A2, A3, YP, YR. split; [reflexivity|]. split; [intro v; cbn; tauto|]. split.
    + intros Q l' [<-|[]]. destruct (A6 Q) as (_ & P & _). exact P.
    + intros [|k] l' E; [|destruct k; discriminate]. cbn in E. injection E as <-. split; [exact O|]. split; [cbn; lia|].
      split; [exact (regular_step _ _ _ ER)|]. split; [lia|]. split; [reflexivity|]. cbn. tauto.
  - destruct pre as [|p pre]; [destruct (run_ne _ _ R eq_refl)|]. cbn in E0. injection E0 as <-.
    destruct (IH p eq_refl) as (I1 & I2 & I3 & I4). destruct (addLoop_same l y) as (_ & A2 & A3 & _ & _ & A6).
    destruct (regular_same _ _ _ _ ER) as (B1 & B2 & B3 & B4). cbn [setPrivate xPrivate xReduct xFinal] in B1, B2, B3, B4.
    rewrite A2, A3, B2, B3. split; [exact I1|]. cbn [tl app] in *. split.
    { intro v. rewrite erase_iff, I2, map_app, in_app_iff. cbn [map In]. intuition. }
    split.
    { intros Q l' L. destruct (A6 Q) as (_ & P & _). destruct L as [L|L]; [apply (I3 F); now left|]. apply in_app_or in L. destruct L as [L|[<-|[]]]; [apply (I3 F); now right|exact P]. }
    intros k l' E. change (nth_error ((p :: pre) ++ [l]) k = Some l') in E. apply nth_snoc in E. destruct E as [[E L]|[-> ->]].
    + destruct (I4 k l' E) as (J1 & J2 & J3 & J4 & J5 & J6). split; [exact J1|]. split.
      { intros _. apply (I3 F). exact (nth_error_In _ _ E). }
      split; [exact J3|]. split; [exact J4|]. split; [exact J5|]. intro v. rewrite J6.
      replace (firstn k (pre ++ [l])) with (firstn k pre); [tauto|]. rewrite firstn_app.
      replace (k - length pre) with 0 by (cbn in L; lia). cbn. now rewrite app_nil_r.
    + split; [exact O|]. split; [cbn; rewrite app_length; cbn; lia|]. split; [exact (regular_step _ _ _ ER)|]. split; [auto|].
      split; [congruence|]. intro v. rewrite (sameSet_iff _ _ S v), erase_iff, I2. cbn [length].
      replace (firstn (Datatypes.S (length pre)) (pre ++ [l])) with (pre ++ [l]).
      * rewrite map_app, in_app_iff. cbn [map In]. intuition.
      * symmetry. apply firstn_all2. rewrite app_length. cbn. lia.
Qed.
Lemma hd_firstn {A} (ls : list A) n : 1 <= n -> hd_error (firstn n ls) = nth_error ls 0.
Proof. intro L. destruct n; [lia|]. destruct ls; reflexivity. Qed.
Lemma nest_ok : C82_nest_claim.
Proof.
  intros ls x E. destruct (parallelize_run ls x E) as (n & y & N & R & Q). exists n. split; [exact N|].
  split; [exact (parallelize_induct ls x n y R Q)|]. intros k l K.
  destruct ls as [|l0 ls]; [cbn in N; lia|]. destruct n as [|n]; [lia|].
  destruct (run_structure _ _ R l0 eq_refl) as (_ & _ & _ & S). destruct (S k l K) as (J1 & J2 & J3 & J4 & J5 & J6).
  assert (LN : length (firstn (Datatypes.S n) (l0 :: ls)) = Datatypes.S n) by (apply firstn_length_le; lia).
  assert (KN : k < Datatypes.S n). { rewrite <- LN. apply nth_error_Some. rewrite K. discriminate. }
  rewrite LN in J2. split; [exact J1|]. split; [exact J2|]. split; [exact J3|]. split; [exact J4|].
  intros l1 L1. cbn in L1. injection L1 as <-. split; [exact J5|]. intro v. rewrite J6. cbn [firstn tl].
  rewrite firstn_firstn. replace (Nat.min k n) with k by lia. tauto.
Qed.

(** Depth. *)
Lemma process_pad loop step accs : forall deps m pad m' p, processDeps loop step accs deps m pad = (m', p) -> p <> 0 ->
  p <= pad /\ forall d ds d0 rest, In d deps -> vectors d ds -> ds = d0 :: rest -> p <= S (countOk (fst d0) rest).
Proof.
  induction deps as [|d deps IH]; intros m pad m' p E P; cbn [processDeps] in E.
  - injection E as <- <-. split; [lia|]. intros d ds d0 rest [].
  - destruct (filter _ accs) as [|a0 xs]; [injection E as <- <-; now destruct P|].
    destruct (scanAccs loop (a0 :: xs) None 0) as [[[dim|] n]|]; try (injection E as <- <-; now destruct P).
    destruct (IH _ _ _ _ E P) as [I1 I2].
    assert (U : forall ds q, updatePAD ds q <= q) by (intros [|u us] q; cbn [updatePAD]; lia).
    pose proof (U (dAnti d) (updatePAD (dFlow d) pad)) as U1. pose proof (U (dFlow d) pad) as U2.
    split; [lia|]. intros d' ds d0 rest [<-|D] V ED; [|exact (I2 d' ds d0 rest D V ED)].
    destruct V as [[V|V] _]; rewrite ED in V.
    + rewrite <- V in U1, I1. cbn [updatePAD] in U1, I1. lia.
    + rewrite <- V in I1. cbn [updatePAD] in I1. lia.
Qed.
Lemma regular_depth l x y : regular l x = (y, true) ->
  (xDepth y = xDepth x /\ vDeps l = [] \/
   exists p, p <> 0 /\ xDepth y = (if Nat.eqb (xDepth x) 0 then p + length (xInduct x) else Nat.min (xDepth x) (p + length (xInduct x))) /\
     forall d ds d0 rest, In d (vDeps l) -> vectors d ds -> ds = d0 :: rest -> p <= S (countOk (fst d0) rest)).
Proof.
  unfold regular. destruct (vDeps l) as [|d0 deps] eqn:ED; [intro E; injection E as <-; auto|].
  destruct (vStep l) as [s|]; [|discriminate]. destruct (processDeps _ _ _ _ _ _) as [m p] eqn:EP.
  destruct (Nat.eqb_spec p 0) as [->|P]; [discriminate|]. intro E. injection E as <-. right. exists p. split; [exact P|].
  split; [reflexivity|]. exact (proj2 (process_pad _ _ _ _ _ _ _ _ EP P)).
Qed.
Lemma run_depth pre x : Run pre x ->
  (xDepth x = 0 \/ length pre <= xDepth x) /\ (xFinal x = false -> xDepth x = 0 \/ length pre < xDepth x) /\
  forall k l d ds d0 rest, nth_error pre k = Some l -> In d (vDeps l) -> vectors d ds -> ds = d0 :: rest ->
    xDepth x <> 0 /\ xDepth x <= k + S (countOk (fst d0) rest).
Proof.
  intro R. induction R as [l x y O ER Y|pre l x y R IH F O H SS D ER].
  - destruct (addLoop_same l y) as (_ & _ & _ & _ & A5 & A6). rewrite A5.
    destruct (regular_same _ _ _ _ ER) as (B1 & _). cbn in B1.
    assert (YD : xDepth y = xDepth x /\ length (xInduct y) = 0).
    { destruct Y as [->| ->]; cbn [finalize xDepth xInduct]; rewrite B1; auto. }
    destruct YD as [YD YL]. rewrite YD in *. rewrite YL in A6.
    destruct (regular_depth _ _ _ ER) as [[E1 E2]|(p & P & E1 & E2)]; cbn [xDepth xInduct length Nat.eqb] in E1.
    + rewrite E1. split; [auto|]. split; [auto|]. intros [|k] l' d ds d0 rest K; [|destruct k; discriminate].
      cbn in K. injection K as <-. rewrite E2. intros [].
    + rewrite E1. split; [right; cbn; lia|]. split.
      { intro Q. destruct (A6 Q) as (_ & _ & [Z|Z]); [lia|]. right. cbn. lia. }
      intros [|k] l' d ds d0 rest K; [|destruct k; discriminate]. cbn in K. injection K as <-. intros D V ED.
      pose proof (E2 d ds d0 rest D V ED). lia.
  - destruct IH as (I1 & I2 & I3). specialize (I2 F). destruct (addLoop_same l y) as (_ & _ & _ & _ & A5 & A6).
    rewrite A5. destruct (regular_same _ _ _ _ ER) as (B1 & _ & _ & B4). cbn [setPrivate xInduct xFinal] in B1, B4.
    assert (LI : length (xInduct x) = length pre) by (rewrite (run_induct _ _ R); apply map_length).
    rewrite B1, LI in A6. rewrite app_length. cbn [length].
    destruct (regular_depth _ _ _ ER) as [[E1 E2]|(p & P & E1 & E2)]; cbn [setPrivate xDepth xInduct] in E1.
    + rewrite E1 in *. split; [lia|]. split.
      { intro Q. destruct (A6 Q) as (_ & _ & [Z|Z]); lia. }
      intros k l' d ds d0 rest K D' V ED. apply nth_snoc in K. destruct K as [[K _]|[_ ->]]; [|rewrite E2 in D'; destruct D'].
      exact (I3 k l' d ds d0 rest K D' V ED).
    + rewrite LI in E1. assert (YD : xDepth y <> 0 /\ xDepth y <= p + length pre /\ (xDepth x <> 0 -> xDepth y <= xDepth x) /\ S (length pre) <= xDepth y).
      { destruct (Nat.eqb_spec (xDepth x) 0) as [Z|Z]; lia. }
      split; [lia|]. split.
      { intro Q. destruct (A6 Q) as (_ & _ & [Z|Z]); lia. }
      intros k l' d ds d0 rest K D' V ED. apply nth_snoc in K. destruct K as [[K _]|[-> ->]].
      * destruct (I3 k l' d ds d0 rest K D' V ED). lia.
      * pose proof (E2 d ds d0 rest D' V ED). lia.
Qed.
Lemma countOk_length m ds : countOk m ds <= length ds.
Proof. induction ds as [|d ds IH]; cbn [countOk length]; [lia|]. destruct (_ && _)%Z; lia. Qed.
Lemma countOk_nth m : forall ds i r, i < countOk m ds -> nth_error ds i = Some r -> (0 <= fst r \/ - fst r < m)%Z.
Proof.
  induction ds as [|d ds IH]; intros i r L E; cbn [countOk] in L; [lia|].
  destruct ((fst d <? 0) && (m <=? - fst d))%Z eqn:B; [lia|]. destruct i as [|i]; cbn in E.
  - injection E as <-. apply andb_false_iff in B. destruct B as [B|B]; [apply Z.ltb_ge in B|apply Z.leb_gt in B]; lia.
  - apply (IH i); [lia|exact E].
Qed.
Lemma within_nth ds v : within ds v -> forall i d, nth_error v i = Some d ->
  exists r, nth_error ds i = Some r /\ (fst r <= d <= snd r)%Z.
Proof.
  intro W. induction W as [|r d0 ds v H W IH]; intros [|i] d E; try discriminate; cbn in *.
  - injection E as <-. eauto.
  - exact (IH i d E).
Qed.
Lemma within_length ds v : within ds v -> length v = length ds.
Proof. intro W. induction W; cbn; congruence. Qed.
Lemma nth_firstn {A} (ls : list A) n k l : nth_error ls k = Some l -> k < n -> nth_error (firstn n ls) k = Some l.
Proof.
  revert n k. induction ls as [|a ls IH]; intros n k E L; [destruct k; discriminate|].
  destruct n; [lia|]. destruct k; cbn in *; [exact E|apply IH; auto; lia].
Qed.
Lemma depth_ok ls x : parallelize ls = Some x ->
  forall k l d ds d0 rest, nth_error ls k = Some l -> k < length (xInduct x) -> In d (vDeps l) -> vectors d ds -> ds = d0 :: rest ->
  length (xInduct x) - k <= S (countOk (fst d0) rest).
Proof.
  intros E k l d ds d0 rest K L D V ED. destruct (parallelize_run ls x E) as (n & y & N & R & Q).
  rewrite (parallelize_induct ls x n y R Q) in *. unfold inducts in *. rewrite map_length in *.
  assert (LN : length (firstn n ls) = n) by (apply firstn_length_le; lia). rewrite LN in *.
  destruct (run_depth _ _ R) as (R1 & _ & R3). rewrite LN in R1.
  destruct (R3 k l d ds d0 rest (nth_firstn _ _ _ _ K L) D V ED) as [Z1 Z2]. lia.
Qed.
Lemma pairs_ok : C82_pairs_claim.
Proof.
  intros ls x E k l d ds v K L D V C W i di d0 I1 VI V0. destruct ds as [|r0 rest]; [destruct V as [_ V]; now destruct V|].
  pose proof (depth_ok ls x E k l d _ r0 rest K L D V eq_refl) as DO.
  destruct (within_nth _ _ W i di VI) as (ri & RI & BI). destruct (within_nth _ _ W 0 d0 V0) as (rz & RZ & BZ).
  cbn in RZ. injection RZ as <-. cbn in C. destruct i as [|i]; [lia|]. cbn in RI.
  pose proof (countOk_nth (fst r0) rest i ri ltac:(lia) RI) as CO. lia.
Qed.
Lemma fronts_ok : C82_fronts_claim true.
Proof.
  intros ls x E T k l d ds v K L D V C W. specialize (T eq_refl).
  destruct ds as [|r0 rest]; [destruct V as [_ V]; now destruct V|].
  pose proof (depth_ok ls x E k l d _ r0 rest K L D V eq_refl) as DO. pose proof (countOk_length (fst r0) rest) as CL.
  split; [cbn; lia|]. inversion W as [|r d0 ds' v' H W']; subst. cbn in C. set (n := length (xInduct x)) in *.
  destruct (n - k) as [|[|[|m]]] eqn:EN; try lia.
  - cbn. lia.
  - destruct v' as [|d1 v']; [cbn; lia|].
    pose proof (pairs_ok ls x E k l d _ (d0 :: d1 :: v') K L D V C W 1 d1 d0) as P. fold n in P.
    specialize (P ltac:(lia) eq_refl eq_refl). cbn. lia.
Qed.

(** Kept. *)
Lemma kept_ok : C82_kept_claim true.
Proof.
  intros l x F IP SI GR. specialize (GR eq_refl). revert SI. unfold exploitInner. destruct (vOk l); [|cbn; tauto].
  destruct (_ || _ || _).
  - intros _. cbn [finalize setPrivate xAcross xPrivate]. split; [reflexivity|]. intro v. cbn [In]. rewrite erase_iff.
    destruct (Nat.eq_dec v (vInduct l)) as [->|N]; split; intro Q; auto.
    destruct Q as [Q|Q]; [now subst|apply Q].
  - unfold regular. rewrite GR. intro Q. destruct (addLoop_same l (setPrivate x (erase (vInduct l) (xPrivate x)))) as (A & _).
    rewrite A in Q. cbn [setPrivate xInduct] in Q. apply (f_equal (@length _)) in Q. rewrite app_length in Q. cbn in Q. lia.
Qed.

(** Across. *)
Definition only (loop d : nat) (s : sub) : Prop := forall c, In c (sCols s) -> (sDim s = d <-> c = loop).
Lemma scanCols_set loop dim : forall cols d o dd', scanCols loop dim cols (Some d) o = Some dd' ->
  dd' = Some d /\ forall c, In c cols -> (dim = d <-> c = loop).
Proof.
  induction cols as [|c cols IH]; intros d o dd' E; cbn [scanCols] in E.
  - injection E as <-. split; [reflexivity|intros c []].
  - cbn [isDim isOtherDim] in E. destruct (Nat.eqb_spec c loop) as [->|N].
    + destruct (Nat.eqb_spec d dim) as [->|N'].
      * destruct o; [discriminate|]. cbn in E. destruct (IH _ _ _ E) as [I1 I2]. split; [exact I1|].
        intros c [<-|C]; [tauto|auto].
      * rewrite orb_true_r in E. discriminate.
    + destruct (Nat.eqb_spec d dim) as [->|N']; [discriminate|]. destruct (IH _ _ _ E) as [I1 I2]. split; [exact I1|].
      intros c' [<-|C]; [|auto]. split; intro; [congruence|contradiction].
Qed.
Lemma scanCols_none loop dim : forall cols o dd', scanCols loop dim cols None o = Some dd' ->
  dd' = None /\ ~ In loop cols \/ dd' = Some dim /\ forall c, In c cols -> c = loop.
Proof.
  induction cols as [|c cols IH]; intros o dd' E; cbn [scanCols] in E.
  - injection E as <-. left. auto.
  - cbn [isDim isOtherDim] in E. destruct (Nat.eqb_spec c loop) as [->|N].
    + rewrite orb_false_r in E. destruct o; [discriminate|]. apply scanCols_set in E. destruct E as [-> E]. right.
      split; [reflexivity|]. intros c [<-|C]; [reflexivity|]. apply (E c C). reflexivity.
    + assert (Q : forall cols dd, scanCols loop dim cols None true = Some dd -> dd = None /\ ~ In loop cols).
      { clear. induction cols as [|c cols IH]; intros dd E; cbn [scanCols] in E; [injection E as <-; auto|].
        cbn [isDim] in E. destruct (Nat.eqb_spec c loop) as [->|N]; [discriminate|]. destruct (IH _ E) as [-> I].
        split; [reflexivity|]. intros [Q|Q]; [congruence|auto]. }
      destruct (Q _ _ E) as [-> I]. left. split; [reflexivity|]. intros [R|R]; [congruence|auto].
Qed.
Lemma scanSubs_set loop : forall ss d dd', scanSubs loop ss (Some d) = Some dd' ->
  dd' = Some d /\ forall s, In s ss -> only loop d s.
Proof.
  induction ss as [|s ss IH]; intros d dd' E; cbn [scanSubs] in E.
  - injection E as <-. split; [reflexivity|intros s []].
  - destruct (sAffine s); [|discriminate]. destruct (scanCols _ _ _ _ _) as [dd|] eqn:EC; [|discriminate].
    apply scanCols_set in EC. destruct EC as [-> EC]. destruct (IH _ _ E) as [I1 I2]. split; [exact I1|].
    intros s' [<-|Q]; [exact EC|auto].
Qed.
Lemma scanSubs_none loop : forall ss dd', NoDup (map sDim ss) -> scanSubs loop ss None = Some dd' ->
  (exists s, In s ss /\ In loop (sCols s)) -> exists d, dd' = Some d /\ In d (map sDim ss) /\ forall s, In s ss -> only loop d s.
Proof.
  induction ss as [|s ss IH]; intros dd' ND E M; cbn [scanSubs] in E; [destruct M as (s & [] & _)|].
  destruct (sAffine s); [|discriminate]. destruct (scanCols _ _ _ _ _) as [dd|] eqn:EC; [|discriminate].
  inversion ND as [|? ? N1 N2]; subst. apply scanCols_none in EC. destruct EC as [[-> EC]|[-> EC]].
  - destruct (IH _ N2 E) as (d & -> & ID & I1).
    { destruct M as (s' & [<-|S] & C); [contradiction|eauto]. }
    exists d. split; [reflexivity|]. split; [now right|]. intros s' [<-|S]; [|auto].
    intros c C. split; intro Q; [|subst; contradiction]. exfalso. apply N1. rewrite Q. exact ID.
  - apply scanSubs_set in E. destruct E as [-> E]. exists (sDim s). split; [reflexivity|]. split; [now left|].
    intros s' [<-|S]; [|auto]. intros c C. split; auto.
Qed.
Lemma scanAccs_set loop : forall accs d n dd' n', scanAccs loop accs (Some d) n = Some (dd', n') ->
  dd' = Some d /\ forall a, In a accs -> alone loop d a.
Proof.
  induction accs as [|a accs IH]; intros d n dd' n' E; cbn [scanAccs] in E.
  - injection E as <- <-. split; [reflexivity|intros a []].
  - destruct (scanSubs _ _ _) as [dd|] eqn:ES; [|discriminate]. apply scanSubs_set in ES. destruct ES as [-> ES].
    destruct (IH _ _ _ _ E) as [I1 I2]. split; [exact I1|]. intros a' [<-|Q]; [exact ES|auto].
Qed.
Lemma scanAccs_length loop N : forall accs dd n dd' n', (forall a, In a accs -> length (aSubs a) = N) ->
  scanAccs loop accs dd n = Some (dd', n') -> n' = match accs with [] => n | _ => Nat.max n N end.
Proof.
  induction accs as [|a accs IH]; intros dd n dd' n' H E; cbn [scanAccs] in E.
  - injection E as <- <-. reflexivity.
  - destruct (scanSubs _ _ _); [|discriminate]. rewrite (H a (or_introl eq_refl)) in E.
    apply IH in E; [|intros a' Q; apply H; now right]. destruct accs; [exact E|]. lia.
Qed.
Lemma scan_ok loop N accs a0 dim n : (forall a, In a accs -> map sDim (aSubs a) = seq 0 N) ->
  hd_error accs = Some a0 -> mentions loop a0 -> scanAccs loop accs None 0 = Some (Some dim, n) ->
  n = N /\ dim < N /\ forall a, In a accs -> alone loop dim a.
Proof.
  intros WF H0 M E. destruct accs as [|a accs]; [discriminate|]. cbn in H0. injection H0 as ->.
  assert (LN : forall a, In a (a0 :: accs) -> length (aSubs a) = N).
  { intros a Q. rewrite <- (map_length sDim), (WF a Q), seq_length. reflexivity. }
  pose proof (scanAccs_length _ N _ _ _ _ _ LN E) as EN. cbn in EN. cbn [scanAccs] in E.
  destruct (scanSubs _ _ _) as [dd|] eqn:ES; [|discriminate]. pose proof (WF a0 (or_introl eq_refl)) as W0.
  apply scanSubs_none in ES; [|rewrite W0; apply seq_NoDup|exact M]. destruct ES as (d & -> & ID & ES).
  apply scanAccs_set in E. destruct E as [E1 E2]. injection E1 as <-. split; [exact EN|]. split.
  - rewrite W0 in ID. apply in_seq in ID. lia.
  - intros a [<-|Q]; [exact ES|auto].
Qed.

Fixpoint look (arr : nat) (m : list (nat * list range)) : option (list range) :=
  match m with [] => None | (a, v) :: m => if Nat.eqb a arr then Some v else look arr m end.
Lemma look_In arr m v : look arr m = Some v -> In (arr, v) m.
Proof.
  induction m as [|[a u] m IH]; cbn [look]; [discriminate|]. destruct (Nat.eqb_spec a arr) as [->|N].
  - intro E. injection E as ->. now left.
  - intro E. right. auto.
Qed.
Lemma look_update arr n d r m : look arr (update arr n d r m) =
  Some (setNth d r (resize n (match look arr m with Some v => v | None => [] end))).
Proof.
  induction m as [|[a u] m IH]; cbn [update look]; [now rewrite Nat.eqb_refl|].
  destruct (Nat.eqb_spec a arr) as [->|N]; cbn [look]; [now rewrite Nat.eqb_refl|].
  apply Nat.eqb_neq in N. now rewrite N.
Qed.
Lemma look_other arr arr' n d r m : arr <> arr' -> look arr (update arr' n d r m) = look arr m.
Proof.
  intro N. induction m as [|[a u] m IH]; cbn [update look].
  - destruct (Nat.eqb_spec arr' arr) as [Q|Q]; [now destruct N|reflexivity].
  - destruct (Nat.eqb_spec a arr') as [->|N']; cbn [look].
    + destruct (Nat.eqb_spec arr' arr) as [Q|Q]; [now destruct N|reflexivity].
    + destruct (Nat.eqb a arr); [reflexivity|exact IH].
Qed.
Lemma resize_length n v : length (resize n v) = n.
Proof. unfold resize. rewrite app_length, firstn_length, repeat_length. lia. Qed.
Lemma resize_same v : resize (length v) v = v.
Proof. unfold resize. rewrite firstn_all, Nat.sub_diag. cbn. apply app_nil_r. Qed.
Lemma setNth_length : forall v d r, length (setNth d r v) = length v.
Proof. induction v as [|x v IH]; intros [|d] r; cbn; auto. Qed.
Lemma setNth_eq : forall v d r, d < length v -> nth_error (setNth d r v) d = Some r.
Proof. induction v as [|x v IH]; intros [|d] r L; cbn in *; try lia; [reflexivity|]. apply IH. lia. Qed.
Lemma setNth_neq : forall v d e r, d <> e -> nth_error (setNth d r v) e = nth_error v e.
Proof. induction v as [|x v IH]; intros [|d] [|e] r N; cbn; auto; try lia. Qed.

(* an entry which describes a dependence *)
Definition entry (dims : nat -> nat) (step : Z) (loop : nat) (accs : list access) (d : dep) (m : list (nat * list range)) : Prop :=
  exists dim vec, look (dArr d) m = Some vec /\ length vec = dims (dArr d) /\ nth_error vec dim = Some (rangeOf step d) /\
    forall a, In a accs -> aArr a = dArr d -> alone loop dim a.
Definition firsts (dims : nat -> nat) (loop : nat) (accs : list access) (deps : list dep) : Prop :=
  (forall a, In a accs -> map sDim (aSubs a) = seq 0 (dims (aArr a))) /\
  forall d a, In d deps -> hd_error (filter (fun a => Nat.eqb (aArr a) (dArr d)) accs) = Some a -> mentions loop a.
Lemma update_keeps dims step loop accs d m loop' accs' d' n dim' r a0 :
  entry dims step loop accs d m -> loop <> loop' -> incl accs' accs ->
  (dArr d' = dArr d -> n = dims (dArr d) /\ In a0 accs' /\ aArr a0 = dArr d /\ alone loop' dim' a0 /\ mentions loop' a0) ->
  entry dims step loop accs d (update (dArr d') n dim' r m).
Proof.
  intros (dim & vec & E1 & E2 & E3 & E4) NL IN H. destruct (Nat.eq_dec (dArr d') (dArr d)) as [ED|ND].
  - destruct (H ED) as (-> & A1 & A2 & A3 & (s & S1 & S2)). rewrite ED.
    assert (DD : dim' <> dim).
    { intro Q. subst dim'. pose proof (E4 a0 (IN _ A1) A2 s S1 loop' S2) as Q1. pose proof (A3 s S1 loop' S2) as Q2.
      apply NL. symmetry. apply Q1. apply Q2. reflexivity. }
    exists dim, (setNth dim' r (resize (dims (dArr d)) vec)). rewrite look_update, E1. split; [reflexivity|].
    rewrite setNth_length, resize_length. split; [reflexivity|]. split; [|exact E4].
    rewrite <- E2, resize_same. rewrite setNth_neq by exact DD. exact E3.
  - exists dim, vec. rewrite look_other by auto. auto.
Qed.
Lemma process_keeps dims step loop accs d loop' step' accs' : loop <> loop' -> incl accs' accs ->
  forall deps m pad, firsts dims loop' accs' deps -> entry dims step loop accs d m ->
  entry dims step loop accs d (fst (processDeps loop' step' accs' deps m pad)).
Proof.
  intros NL IN. induction deps as [|d' deps IH]; intros m pad FS E; cbn [processDeps]; [exact E|].
  destruct (filter _ accs') as [|a0 xs] eqn:EF; [exact E|].
  destruct (scanAccs loop' (a0 :: xs) None 0) as [[[dim|] n]|] eqn:ES; try exact E.
  destruct FS as [FW FM]. apply IH.
  - split; [exact FW|]. intros d1 a D. apply FM. now right.
  - assert (FI : forall a, In a (a0 :: xs) -> In a accs' /\ aArr a = dArr d').
    { intros a Q. rewrite <- EF in Q. apply filter_In in Q. destruct Q as [Q1 Q2]. apply Nat.eqb_eq in Q2. auto. }
    assert (M0 : mentions loop' a0). { apply (FM d'); [now left|]. rewrite EF. reflexivity. }
    assert (W : forall a, In a (a0 :: xs) -> map sDim (aSubs a) = seq 0 (dims (dArr d'))).
    { intros a Q. destruct (FI a Q) as [Q1 <-]. apply FW, Q1. }
    destruct (scan_ok loop' _ (a0 :: xs) a0 dim n W eq_refl M0 ES) as (-> & _ & AL).
    apply (update_keeps dims step loop accs d m loop' accs' d' _ dim _ a0 E NL IN). intro ED. rewrite ED.
    destruct (FI a0 (or_introl eq_refl)) as [Q1 Q2]. split; [reflexivity|]. split; [exact Q1|]. split; [congruence|].
    split; [apply AL; now left|exact M0].
Qed.
Lemma process_sets dims loop step accs : forall deps m pad m' p, firsts dims loop accs deps -> NoDup (map dArr deps) ->
  processDeps loop step accs deps m pad = (m', p) -> p <> 0 -> forall d, In d deps -> entry dims step loop accs d m'.
Proof.
  induction deps as [|d' deps IH]; intros m pad m' p FS ND E P d D; [destruct D|]. cbn [processDeps] in E.
  destruct (filter _ accs) as [|a0 xs] eqn:EF; [injection E as <- <-; now destruct P|].
  destruct (scanAccs loop (a0 :: xs) None 0) as [[[dim|] n]|] eqn:ES; try (injection E as <- <-; now destruct P).
  cbn [map] in ND. inversion ND as [|? ? N1 N2]; subst. destruct FS as [FW FM].
  assert (FS' : firsts dims loop accs deps). { split; [exact FW|]. intros d1 a Q. apply FM. now right. }
  destruct D as [<-|D]; [|exact (IH _ _ _ _ FS' N2 E P d D)].
  assert (FI : forall a, In a (a0 :: xs) <-> In a accs /\ aArr a = dArr d').
  { intros a. rewrite <- EF, filter_In, Nat.eqb_eq. tauto. }
  assert (M0 : mentions loop a0). { apply (FM d'); [now left|]. rewrite EF. reflexivity. }
  assert (W : forall a, In a (a0 :: xs) -> map sDim (aSubs a) = seq 0 (dims (dArr d'))).
  { intros a Q. apply FI in Q. destruct Q as [Q1 <-]. apply FW, Q1. }
  destruct (scan_ok loop _ (a0 :: xs) a0 dim n W eq_refl M0 ES) as (-> & DN & AL).
  assert (E0 : entry dims step loop accs d' (update (dArr d') (dims (dArr d')) dim (rangeOf step d') m)).
  { eexists dim, _. rewrite look_update. split; [reflexivity|]. rewrite setNth_length, resize_length. split; [reflexivity|].
    split; [apply setNth_eq; now rewrite resize_length|]. intros a A1 A2. apply AL, FI. auto. }
  (* other dependencies of this loop are about other arrays *)
  assert (K : forall deps m pad, ~ In (dArr d') (map dArr deps) -> entry dims step loop accs d' m ->
    entry dims step loop accs d' (fst (processDeps loop step accs deps m pad))).
  { clear. induction deps as [|d1 deps IH]; intros m pad N Q; cbn [processDeps]; [exact Q|].
    destruct (filter _ accs); [exact Q|]. destruct (scanAccs _ _ _ _) as [[[dim|] n]|]; try exact Q.
    apply IH; [intro R; apply N; now right|]. destruct Q as (dm & vec & Q1 & Q2). exists dm, vec.
    rewrite look_other; [auto|]. intro R. apply N. left. auto. }
  specialize (K deps _ (updatePAD (dAnti d') (updatePAD (dFlow d') pad)) N1 E0). now rewrite E in K.
Qed.
Lemma regular_across l x y ok : regular l x = (y, ok) ->
  xAcross y = xAcross x /\ (ok = true -> vDeps l = []) \/
  exists step pad, vStep l = Some step /\ xAcross y = fst (processDeps (vId l) step (vAccs l) (vDeps l) (xAcross x) pad) /\
    (ok = true -> snd (processDeps (vId l) step (vAccs l) (vDeps l) (xAcross x) pad) <> 0).
Proof.
  unfold regular. destruct (vDeps l) as [|d0 deps] eqn:ED; [intro E; injection E as <- <-; auto|].
  destruct (vStep l) as [s|]; [|intro E; injection E as <- <-; left; split; [reflexivity|discriminate]].
  destruct (processDeps _ _ _ _ _ _) as [m p] eqn:EP. intro E. right. exists s, (initialPAD (d0 :: deps)). rewrite EP.
  split; [reflexivity|]. destruct (Nat.eqb_spec p 0) as [->|P]; injection E as <- <-; cbn [xAcross fst snd]; split; auto; discriminate.
Qed.
Definition sets (dims : nat -> nat) (m : list (nat * list range)) (l : level) : Prop :=
  forall d, In d (vDeps l) -> exists step, vStep l = Some step /\ entry dims step (vId l) (vAccs l) d m.
Definition allFirsts (dims : nat -> nat) (ls : list level) : Prop := forall l, In l ls -> firsts dims (vId l) (vAccs l) (vDeps l).
Lemma regular_keeps dims l l' x y ok : regular l' x = (y, ok) -> vId l <> vId l' -> incl (vAccs l') (vAccs l) ->
  firsts dims (vId l') (vAccs l') (vDeps l') -> sets dims (xAcross x) l -> sets dims (xAcross y) l.
Proof.
  intros E NL IN FS H d D. destruct (H d D) as (step & ST & EN). exists step. split; [exact ST|].
  destruct (regular_across _ _ _ _ E) as [[E1 _]|(s & pad & _ & E1 & _)]; rewrite E1; [exact EN|].
  apply process_keeps; assumption.
Qed.
Lemma regular_sets dims l x y : regular l x = (y, true) -> firsts dims (vId l) (vAccs l) (vDeps l) ->
  NoDup (map dArr (vDeps l)) -> sets dims (xAcross y) l.
Proof.
  intros E FS ND d D. destruct (regular_across _ _ _ _ E) as [[_ E1]|(s & pad & ST & E1 & E2)].
  - rewrite (E1 eq_refl) in D. destruct D.
  - exists s. split; [exact ST|]. rewrite E1. specialize (E2 eq_refl).
    destruct (processDeps (vId l) s (vAccs l) (vDeps l) (xAcross x) pad) as [m p] eqn:EP. cbn [fst snd] in *.
    exact (process_sets dims _ _ _ _ _ _ _ _ FS ND EP E2 d D).
Qed.
Lemma run_across dims pre x : Run pre x -> forall rest, NoDup (map vId (pre ++ rest)) -> allFirsts dims (pre ++ rest) ->
  (forall l, In l (pre ++ rest) -> NoDup (map dArr (vDeps l))) ->
  (forall i j l l' a, i <= j -> nth_error (pre ++ rest) i = Some l -> nth_error (pre ++ rest) j = Some l' -> In a (vAccs l') -> In a (vAccs l)) ->
  forall l, In l pre -> sets dims (xAcross x) l.
Proof.
  intro R. induction R as [l x y O ER Y|pre l x y R IH F O H SS D ER]; intros rest ND AF NA AC l' L.
  - destruct L as [<-|[]]. destruct (addLoop_same l y) as (_ & _ & _ & A & _). rewrite A.
    assert (EY : xAcross y = xAcross x) by (destruct Y as [->| ->]; reflexivity). rewrite EY.
    apply (regular_sets dims l _ x ER); [apply AF; now left|apply NA; now left].
  - destruct (addLoop_same l y) as (_ & _ & _ & A & _). rewrite A. rewrite <- app_assoc in ND, AF, NA, AC. cbn [app] in ND, AF, NA, AC.
    assert (IL : In l (pre ++ l :: rest)) by (apply in_or_app; right; now left).
    apply in_app_or in L. destruct L as [L|[<-|[]]].
    + apply (regular_keeps dims l' l _ _ _ ER).
      * intro Q. rewrite map_app in ND. cbn [map] in ND. apply NoDup_remove_2 in ND. apply ND. apply in_or_app. left.
        rewrite <- Q. now apply in_map.
      * intros a Q. apply In_nth_error in L. destruct L as [i L]. assert (IL' : i < length pre) by (apply nth_error_Some; congruence).
        apply (AC i (length pre) l' l a); [lia|now rewrite nth_error_app1| |exact Q].
        rewrite nth_error_app2, Nat.sub_diag by lia. reflexivity.
      * apply AF, IL.
      * cbn [setPrivate xAcross]. apply (IH (l :: rest)); auto.
    + apply (regular_sets dims l _ y ER); [apply AF, IL|apply NA, IL].
Qed.
Lemma across_ok : C82_across_claim true.
Proof.
  intros dims ls x E (ND & WD & NA & AC) GF k l d K L D. specialize (GF eq_refl).
  destruct (parallelize_run ls x E) as (n & y & N & R & Q).
  assert (LI : length (xInduct x) = n).
  { rewrite (parallelize_induct ls x n y R Q). unfold inducts. rewrite map_length. apply firstn_length_le. lia. }
  rewrite LI in L. pose proof (firstn_skipn n ls) as FSK.
  assert (AF : allFirsts dims ls).
  { intros l1 L1. split; [intros a; exact (WD l1 a L1)|]. intros d1 a D1. exact (GF l1 d1 a L1 D1). }
  assert (IN : In l (firstn n ls)) by exact (nth_error_In _ _ (nth_firstn _ _ _ _ K L)).
  assert (SY : sets dims (xAcross y) l).
  { apply (run_across dims _ _ R (skipn n ls)); rewrite ?FSK; auto. }
  assert (SX : sets dims (xAcross x) l).
  { destruct Q as [->|(l' & L' & _ & (_ & _ & _ & RJ))]; [exact SY|].
    destruct RJ as [RJ|(z & _ & ER & RJ)]; rewrite RJ; [exact SY|].
    apply (regular_keeps dims l l' _ _ _ ER).
    - intro Q. pose proof (map_nth_error vId _ _ K) as M1. pose proof (map_nth_error vId _ _ L') as M2.
      rewrite Q in M1. rewrite <- M2 in M1. apply (proj1 (NoDup_nth_error _) ND) in M1; [lia|].
      apply nth_error_Some. rewrite M1, M2. discriminate.
    - intros a A. apply (AC k n l l' a); auto. lia.
    - apply AF. exact (nth_error_In _ _ L').
    - exact SY. }
  destruct (SX d D) as (step & ST & (dim & vec & E1 & E2 & E3 & E4)). unfold rangeOf in E3.
  exists step, dim, vec. destruct (step <? 0)%Z eqn:EZ.
  - exists (distance (dAnti d)), (distance (dFlow d)). split; [exact ST|]. split; [exact (look_In _ _ _ E1)|]. split; [exact E2|].
    split; [exact E3|]. split; [|exact E4]. split; [destruct (dFlow d)|destruct (dAnti d)]; reflexivity.
  - exists (distance (dFlow d)), (distance (dAnti d)). split; [exact ST|]. split; [exact (look_In _ _ _ E1)|]. split; [exact E2|].
    split; [exact E3|]. split; [|exact E4]. split; [destruct (dFlow d)|destruct (dAnti d)]; reflexivity.
Qed.
