(** Proofs about memory sets. *)
From Coq Require Import ZArith Bool List Lia.
From Verif Require Import RangeModel RangeSpec RangeProof RangeBytes MemSetModel MemSetSpec.
Import ListNotations.
Open Scope Z_scope.

Lemma ptr_eqb_spec a b : reflect (a = b) (ptr_eqb a b).
Proof.
  destruct a, b; simpl; try (constructor; congruence).
  destruct (Nat.eqb_spec n n0); constructor; congruence.
Qed.

(** ** Joining two locations *)
Lemma sizecmp_le_below h1 h2 b : sizecmp h1 h2 <= 0 -> below b h1 -> below b h2.
Proof.
  unfold sizecmp. destruct h1 as [p n| |], h2 as [q m| |]; simpl; auto; try lia.
  destruct (Bool.eqb p q && (n =? m)) eqn:E; [lia|].
  destruct (Z.ltb_spec n m); [lia|]. destruct (Z.eqb_spec n m); lia.
Qed.
Lemma sizecmp_ge_below h1 h2 b : sizecmp h1 h2 >= 0 -> below b h2 -> below b h1.
Proof.
  unfold sizecmp. destruct h1 as [p n| |], h2 as [q m| |]; simpl; auto; try lia.
  destruct (Bool.eqb p q && (n =? m)) eqn:E; [lia|].
  destruct (Z.ltb_spec n m); [lia|]. destruct (Z.eqb_spec n m); lia.
Qed.
Lemma sizecmp_known a b : hasValue a = true -> hasValue b = true ->
  (sizecmp a b < 0 <-> getValue a < getValue b) /\ (sizecmp a b > 0 <-> getValue a > getValue b).
Proof.
  unfold sizecmp. destruct a as [p n| |], b as [q m| |]; simpl; try discriminate. intros _ _.
  destruct (Bool.eqb p q && (n =? m)) eqn:E; [lia|].
  destruct (Z.ltb_spec n m); [lia|]. destruct (Z.eqb_spec n m); lia.
Qed.
Lemma below_known b s : hasValue s = true -> (below b s <-> b < getValue s).
Proof. destruct s; simpl; try discriminate; tauto. Qed.

Lemma joinDim_ok L R : dimOk L -> dimOk R -> dStep L = dStep R ->
  (dStart L >= dStart R -> (dStart L - dStart R) mod dStep L = 0) ->
  (dStart R >= dStart L -> (dStart R - dStart L) mod dStep L = 0) ->
  (dEnd L < dStart R -> dStart R - dEnd L = dStep L) ->
  (dEnd R < dStart L -> dStart L - dEnd R = dStep L) ->
  let J := fst (joinDim R L) in
  dimOk J /\ dSize J = dSize L /\ (dEnd J = dEnd L \/ dEnd J = dEnd R) /\
  (forall i, inDim J i <-> inDim L i \/ inDim R i).
Proof.
  intros (L0 & L1 & L2) (R0 & R1 & R2) Est A1 A2 G1 G2.
  assert (Hq : exists q, dStart L = dStart R + dStep L * q).
  { destruct (Z_le_gt_dec (dStart R) (dStart L)).
    - specialize (A1 ltac:(lia)). apply Z.mod_divide in A1; [|lia]. destruct A1 as [k Hk]. exists k. lia.
    - specialize (A2 ltac:(lia)). apply Z.mod_divide in A2; [|lia]. destruct A2 as [k Hk]. exists (- k). lia. }
  destruct Hq as [q Hq]. clear A1 A2.
  set (s := dStep L) in *. unfold dEnd in G1, G2. rewrite <- Est in G2. fold s in G1, G2.
  set (m := dTrip L) in *. set (n := dTrip R) in *.
  assert (G1' : q + m - 1 < 0 -> q + m = 0) by (rewrite Hq in G1; nia).
  assert (G2' : n - 1 < q -> q = n) by (rewrite Hq in G2; nia).
  clear G1 G2.
  (* the joined dimension: from min to max *)
  set (lo := Z.min 0 q). set (hi := Z.max (n - 1) (q + m - 1)).
  assert (HJ : joinDim R L = (mkDim (dStart R + s * lo) s (hi - lo + 1) (dSize L), snd (joinDim R L))).
  { unfold joinDim. rewrite <- Est. fold s m n.
    destruct (Z.ltb_spec (dStart R) (dStart L)) as [Hlt|Hge].
    - assert (0 < q) by nia.
      assert (Eq1 : (dStart L - dStart R) / s = q).
      { rewrite Hq. replace (dStart R + s * q - dStart R) with (q * s) by ring. apply Z.div_mul. lia. }
      rewrite Eq1. unfold dEnd. cbn [dStart dStep dTrip dSize]. rewrite <- Est. fold s m n.
      destruct (Z.gtb_spec (dStart R + s * (n - 1)) (dStart R + s * (m + q - 1))).
      + assert (Eq2 : (dStart R + s * (n - 1) - (dStart R + s * (m + q - 1))) / s = n - m - q).
        { replace (dStart R + s * (n - 1) - (dStart R + s * (m + q - 1))) with ((n - m - q) * s) by ring.
          apply Z.div_mul. lia. }
        rewrite Eq2. cbn [snd]. f_equal. f_equal; unfold lo, hi; [lia|nia].
      + cbn [snd]. f_equal. f_equal; unfold lo, hi; [lia|nia].
    - assert (q <= 0) by nia.
      unfold dEnd. rewrite <- Est. fold s m n.
      destruct (Z.gtb_spec (dStart R + s * (n - 1)) (dStart L + s * (m - 1))).
      + assert (Eq2 : (dStart R + s * (n - 1) - (dStart L + s * (m - 1))) / s = n - m - q).
        { rewrite Hq.
          replace (dStart R + s * (n - 1) - (dStart R + s * q + s * (m - 1))) with ((n - m - q) * s) by ring.
          apply Z.div_mul. lia. }
        rewrite Eq2. cbn [snd]. f_equal. f_equal; unfold lo, hi; [rewrite Hq; f_equal; f_equal; lia|].
        rewrite Hq in *. nia.
      + cbn [snd]. f_equal. destruct L as [ls lst lt lz]. cbn [dStart dStep dTrip dSize] in *.
        unfold s, m in *. f_equal; unfold lo, hi; [rewrite Hq; f_equal; f_equal; lia|].
        rewrite Hq in *. nia. }
  intros J. unfold J. rewrite HJ. cbn [fst].
  assert (Hhl : lo <= 0 /\ 0 <= hi) by (unfold lo, hi; lia).
  split; [|split; [|split]].
  - unfold dimOk; cbn [dStart dStep dTrip]. split; [|lia].
    unfold lo. destruct (Z.min_spec 0 q) as [[_ ->]|[_ ->]]; lia.
  - reflexivity.
  - unfold dEnd; cbn [dStart dStep dTrip]. rewrite <- Est. fold s m n. rewrite Hq.
    unfold hi. destruct (Z.max_spec (n - 1) (q + m - 1)) as [[_ ->]|[_ ->]]; [left|right]; ring.
  - intros i. unfold inDim; cbn [dStart dStep dTrip]. rewrite <- Est. fold s m n. split.
    + intros (k & Hk & ->). unfold lo, hi in Hk.
      set (t := lo + k). assert (Ht : Z.min 0 q <= t <= Z.max (n - 1) (q + m - 1)) by (unfold t, lo; lia).
      destruct (Z_le_gt_dec q t) as [H1|H1]; [destruct (Z_lt_le_dec t (q + m)) as [H2|H2]|].
      * left. exists (t - q). split; [lia|]. rewrite Hq. unfold t. ring.
      * right. exists t. split; [lia|]. unfold t. ring.
      * right. exists t. split; [lia|]. unfold t. ring.
    + intros [(k & Hk & ->)|(k & Hk & ->)].
      * exists (q + k - lo). split; [unfold lo, hi; lia|]. rewrite Hq. ring.
      * exists (k - lo). split; [unfold lo, hi; lia|]. ring.
Qed.

Lemma joinDim_same L : joinDim L L = (L, false).
Proof.
  unfold joinDim. rewrite Z.ltb_irrefl. rewrite Z.gtb_ltb, Z.ltb_irrefl. reflexivity.
Qed.
Lemma joinDims_same ls : joinDims ls ls = (ls, false).
Proof. induction ls; simpl; auto. rewrite joinDim_same, IHls. reflexivity. Qed.
Lemma joinableDims_zero ls : forall rs, length ls = length rs ->
  joinableDims ls rs = Some O -> ls = rs.
Proof.
  induction ls as [|L ls IH]; intros [|R rs]; simpl; try discriminate; auto.
  intros Hl. destruct (dim_eqb L R) eqn:E.
  - apply dim_eqb_eq in E. intros H. f_equal; auto.
  - destruct (_ || _); [discriminate|]. destruct (joinableDims ls rs); discriminate.
Qed.
Lemma joinDims_ok ls : forall rs n, length ls = length rs ->
  Forall dimOk ls -> Forall dimOk rs ->
  joinableDims ls rs = Some n -> (n <= 1)%nat ->
  let J := fst (joinDims rs ls) in
  Forall dimOk J /\ map dSize J = map dSize ls /\
  Forall2 (fun j lr => dEnd j = dEnd (fst lr) \/ dEnd j = dEnd (snd lr)) J (combine ls rs) /\
  (forall idx, inDims J idx <-> inDims ls idx \/ inDims rs idx).
Proof.
  induction ls as [|L ls IH]; intros [|R rs] n Hlen HL HR; try discriminate.
  - simpl. intros _ _. repeat split; try constructor; auto. intros [H|H]; auto.
  - simpl in Hlen. inversion HL as [|? ? HL1 HL2]; subst. inversion HR as [|? ? HR1 HR2]; subst.
    cbn [joinableDims joinDims]. destruct (dim_eqb L R) eqn:E.
    + apply dim_eqb_eq in E. subst R. intros Hj Hn.
      destruct (IH rs n ltac:(lia) HL2 HR2 Hj Hn) as (A & B & C & D).
      rewrite joinDim_same. destruct (joinDims rs ls) as [J c]. simpl in *.
      split; [constructor; auto|]. split; [congruence|]. split; [constructor; auto|].
      intros idx. unfold inDims in *. split.
      * intros H. inversion H; subst. apply D in H4. destruct H4; [left|right]; constructor; auto.
      * intros [H|H]; inversion H; subst; constructor; auto; apply D; auto.
    + destruct (negb (dStep L =? dStep R) || _ || _ || _ || _) eqn:Ec; [discriminate|].
      destruct (joinableDims ls rs) as [k|] eqn:Ek; simpl; [|discriminate].
      intros Hj Hn. injection Hj as <-. assert (k = O) by lia. subst k.
      apply joinableDims_zero in Ek; [|lia]. subst rs. rewrite joinDims_same.
      rewrite !orb_false_iff in Ec. destruct Ec as ((((C1 & C2) & C3) & C4) & C5).
      destruct (joinDim_ok L R HL1 HR1) as (A & B & C & D); try lia.
      destruct (joinDim R L) as [j c]. simpl in *.
      split; [constructor; auto|]. split; [congruence|]. split.
      { constructor; auto. clear. induction ls; simpl; constructor; auto. }
      intros idx. unfold inDims in *. split.
      * intros H. inversion H; subst. apply D in H2. destruct H2; [left|right]; constructor; auto.
      * intros [H|H]; inversion H; subst; constructor; auto; apply D; auto.
Qed.
(** No change reported: the location is the same. *)
Lemma joinDim_unchanged R L : snd (joinDim R L) = false -> fst (joinDim R L) = L.
Proof.
  unfold joinDim. destruct (dStart R <? dStart L).
  - destruct (dEnd R >? _); discriminate.
  - destruct (dEnd R >? _); [discriminate|reflexivity].
Qed.
Lemma joinDims_unchanged rs : forall ls, snd (joinDims rs ls) = false -> fst (joinDims rs ls) = ls.
Proof.
  induction rs as [|R rs IH]; intros [|L ls]; simpl; auto.
  pose proof (joinDim_unchanged R L) as H1. specialize (IH ls).
  destruct (joinDim R L), (joinDims rs ls). simpl in *. intros H.
  apply orb_false_iff in H. destruct H. f_equal; auto.
Qed.

Lemma kind_eqb_collapsed a b : kind_eqb a b = true -> rCollapsed a = rCollapsed b.
Proof.
  unfold kind_eqb. rewrite !andb_true_iff. intros ((_ & H) & _).
  apply Bool.eqb_prop in H. auto.
Qed.

Lemma joinTags_fields C L : let J := joinTags C L in
  rPtr J = rPtr C /\ rLo J = rLo C /\ rHi J = rHi C /\ rDims J = rDims C /\
  rNonCollapsable J = rNonCollapsable C /\ rCollapsed J = rCollapsed C /\ rHint J = rHint C.
Proof.
  unfold joinTags. destruct (negb _); [|repeat split].
  destruct (rTags C); simpl; repeat split.
Qed.
Lemma joinTags_covers C L b : covers (joinTags C L) b <-> covers C b.
Proof.
  destruct (joinTags_fields C L) as (_ & E2 & E3 & E4 & _ & E6 & _).
  unfold covers. rewrite E2, E3, E4, E6. tauto.
Qed.
Lemma joinTags_shape p E sz C L : shapeOk p E sz C -> shapeOk p E sz (joinTags C L).
Proof.
  destruct (joinTags_fields C L) as (E1 & E2 & E3 & E4 & E5 & E6 & _).
  intros [H1 H2 H3]. split; rewrite ?E1, ?E2, ?E3, ?E4, ?E5, ?E6; auto.
Qed.

Lemma joinRanges_ok p E sz C L :
  viewOk E sz -> shapeOk p E sz C -> shapeOk p E sz L -> areJoinable C L = true ->
  let J := fst (joinRanges L (joinTags C L)) in
  shapeOk p E sz J /\ (forall b, covers J b <-> covers C b \/ covers L b).
Proof.
  intros Hv HC HL Hj.
  set (C' := joinTags C L).
  assert (HC' : shapeOk p E sz C') by (apply joinTags_shape; auto).
  assert (Hcov : forall b, covers C' b <-> covers C b) by (intros; apply joinTags_covers).
  assert (Hj' : areJoinable C' L = true).
  { destruct (joinTags_fields C L) as (E1 & E2 & E3 & E4 & E5 & E6 & E7). fold C' in E1, E2, E3, E4, E5, E6, E7.
    unfold areJoinable, kind_eqb in *. rewrite E2, E3, E4, E5, E6, E7. exact Hj. }
  clearbody C'. clear Hj.
  assert (G : shapeOk p E sz (fst (joinRanges L C')) /\
      (forall b, covers (fst (joinRanges L C')) b <-> covers C' b \/ covers L b)).
  2:{ simpl. destruct G as [G1 G2]. split; auto. intros b. rewrite G2, Hcov. tauto. }
  clear Hcov HC C. rename C' into C, HC' into HC, Hj' into Hj.
  unfold areJoinable in Hj.
  destruct (negb (Nat.eqb (length (rDims C)) (length (rDims L))) || negb (kind_eqb C L)) eqn:E0; [discriminate|].
  rewrite orb_false_iff, !negb_false_iff, Nat.eqb_eq in E0. destruct E0 as [Elen Ek].
  apply kind_eqb_collapsed in Ek.
  destruct (rCollapsed C) eqn:EC.
  - symmetry in Ek.
    pose proof HC as [C1 _ C2]. destruct (C2 EC) as (C3 & C4 & C5 & C6 & C7 & C8 & C9).
    pose proof HL as [L1 _ L2]. destruct (L2 Ek) as (L3 & L4 & L5 & L6 & L7 & L8 & L9).
    unfold joinRanges. destruct (rDims C) as [|d ds] eqn:Ed; [congruence|].
    destruct (joinableDims (d :: ds) (rDims L)) as [n|] eqn:En; [|discriminate].
    apply Nat.leb_le in Hj.
    destruct (joinDims_ok (d :: ds) (rDims L) n Elen C8 L8 En Hj) as (A & B & F & D).
    destruct (joinDims (rDims L) (d :: ds)) as [J ch]. cbn [fst] in *.
    assert (SJ : shapeOk p E sz (setDims C J)).
    { split; simpl; [auto|congruence|]. intros _. split; [auto|]. split; [intros ->; discriminate|].
      split; [auto|]. split; [auto|]. split; [congruence|]. split; [auto|].
      destruct J as [|j J]; [exact I|]. destruct (rDims L) as [|l ls]; [discriminate|].
      simpl in F. inversion F as [|? ? ? ? F1 F2]; subst. cbn [fst snd] in F1.
      destruct C9 as (P1 & P2 & P3), L9 as (Q1 & Q2 & Q3).
      simpl in B. injection B as B1 B2. simpl in L7. injection L7 as L7 L7'.
      simpl. rewrite B1. split; [|split; [auto|]].
      - intros Hp. unfold dimInside. rewrite B1. destruct F1 as [->| ->]; [apply P1; auto|].
        rewrite <- L7. apply Q1. lia.
      - clear - F2 B2 P3 Q3 L7'. revert J ls F2 B2 P3 Q3 L7'.
        induction ds as [|x ds IH]; intros J ls F2 B2 P3 Q3 L7'.
        + destruct J; [constructor|discriminate].
        + destruct J as [|j J]; [constructor|]. destruct ls as [|l ls]; [discriminate|].
          simpl in F2. inversion F2 as [|? ? ? ? F1 F3]; subst. cbn [fst snd] in F1.
          simpl in B2, L7'. injection B2 as B1 B2. injection L7' as L7 L7'.
          inversion P3 as [|? ? PA PB]; inversion Q3 as [|? ? QA QB]; subst. constructor.
          * unfold dimInside in *. destruct F1 as [->| ->]; lia.
          * apply (IH J ls); auto. }
    split; [exact SJ|]. intros b.
    rewrite (covers_idx p E sz _ b (proj1 Hv) SJ EC), (covers_idx p E sz C b (proj1 Hv) HC EC),
      (covers_idx p E sz L b (proj1 Hv) HL Ek), Ed. simpl. split.
    + intros (idx & Hi & Hl). apply D in Hi. destruct Hi; [left|right]; eauto.
    + intros [(idx & Hi & Hl)|(idx & Hi & Hl)]; exists idx; split; auto; apply D; auto.
  - symmetry in Ek.
    pose proof HC as [C1 C2 _]. destruct (C2 EC) as (C3 & C4 & C5 & C6).
    pose proof HL as [L1 L2 _]. destruct (L2 Ek) as (L3 & L4 & L5 & L6).
    rewrite C3 in Hj. apply andb_true_iff in Hj. destruct Hj as [J1 J2].
    unfold joinRanges. rewrite C3. cbn [fst].
    destruct (sizecmp_known (rLo C) (rLo L) C4 L4) as [K1 K2].
    assert (T1 : forall b, b < getValue (rLo L) -> below b (rHi C)).
    { intros b Hb. apply sizecmp_ge_below with (rLo L); [lia|]. apply below_known; auto. }
    assert (T2 : forall b, b < getValue (rLo C) -> below b (rHi L)).
    { intros b Hb. apply sizecmp_le_below with (rLo C); [lia|]. apply below_known; auto. }
    set (lo := if sizecmp (rLo C) (rLo L) >? 0 then rLo L else rLo C).
    set (hi := if sizecmp (rHi C) (rHi L) <? 0 then rHi L else rHi C).
    assert (Hlo : hasValue lo = true /\ getValue lo = Z.min (getValue (rLo C)) (getValue (rLo L))).
    { unfold lo. destruct (Z.gtb_spec (sizecmp (rLo C) (rLo L)) 0); split; auto; lia. }
    assert (Hhi : forall b, below b hi <-> below b (rHi C) \/ below b (rHi L)).
    { intros b. unfold hi. destruct (Z.ltb_spec (sizecmp (rHi C) (rHi L)) 0).
      - split; [auto|]. intros [Hb|Hb]; auto. apply sizecmp_le_below with (rHi C); auto; lia.
      - split; [auto|]. intros [Hb|Hb]; auto. apply sizecmp_ge_below with (rHi L); auto; lia. }
    split.
    + split; simpl; [auto| |congruence]. intros _. split; [auto|]. split; [apply Hlo|].
      split; [destruct Hlo as [_ ->]; lia|]. intros Hhv.
      assert (Hpick : (hi = rHi C /\ hasValue (rHi C) = true) \/ (hi = rHi L /\ hasValue (rHi L) = true)).
      { unfold hi in *. destruct (sizecmp (rHi C) (rHi L) <? 0); auto. }
      destruct Hlo as [_ ->].
      destruct Hpick as [(-> & Hv')|(-> & Hv')]; [specialize (C6 Hv')|specialize (L6 Hv')]; split; try lia; tauto.
    + intros b. unfold covers; simpl. rewrite EC, Ek. destruct Hlo as [_ ->]. rewrite Hhi.
      specialize (T1 b). specialize (T2 b).
      destruct (Z_lt_le_dec b (getValue (rLo C))), (Z_lt_le_dec b (getValue (rLo L))); intuition lia.
Qed.

Lemma joinRanges_unchanged L C : snd (joinRanges L C) = false -> fst (joinRanges L C) = C.
Proof.
  unfold joinRanges. destruct (rDims C) as [|d ds] eqn:E.
  - simpl. intros H. apply orb_false_iff in H. destruct H as [-> ->].
    destruct C; simpl in *; unfold setBounds; simpl; congruence.
  - pose proof (joinDims_unchanged (rDims L) (d :: ds)) as H.
    destruct (joinDims (rDims L) (d :: ds)) as [J c]. simpl in *. intros Hc.
    rewrite H by auto. rewrite <- E. destruct C; reflexivity.
Qed.

(** ** Insertion *)
Lemma coversAny_insertNth x l b : forall i, coversAny (insertNth i x l) b <-> covers x b \/ coversAny l b.
Proof.
  induction l as [|y l IH]; intros [|i]; simpl; rewrite ?coversAny_cons, ?coversAny_nil; try tauto.
  rewrite IH. tauto.
Qed.
Lemma Forall_insertNth (P : range -> Prop) x l : P x -> Forall P l -> forall i, Forall P (insertNth i x l).
Proof.
  intros Hx H. induction H as [|y l Hy H IH]; intros [|i]; simpl; repeat constructor; auto.
Qed.
Lemma insLoop_ok v p Loc : viewOk (fst (v p)) (snd (v p)) -> locOk v p Loc ->
  forall rest done ins, Forall (locOk v p) done -> Forall (locOk v p) rest ->
  let '(l', ch, i) := insLoop Loc done rest ins in
  l' <> [] /\ Forall (locOk v p) l' /\
  (forall b, coversAny l' b <-> coversAny (done ++ rest) b \/ covers Loc b) /\
  (ch = false -> forall b, coversAny l' b <-> coversAny (done ++ rest) b) /\
  (ch = false -> Forall2 (fun a b => setTags a (rTags b) = b) (done ++ rest) l').
Proof.
  intros Hv HL. induction rest as [|C rest IH]; intros done ins Hd Hr; cbn [insLoop].
  - rewrite app_nil_r. set (k := match rDims Loc with [] => ins | _ => length done end).
    split; [destruct k, done; discriminate|]. split; [apply Forall_insertNth; auto|].
    split; [intros b; rewrite coversAny_insertNth; tauto|]. split; discriminate.
  - inversion Hr as [|? ? HC Hr']; subst. destruct (areJoinable C Loc) eqn:Ej.
    + destruct (joinRanges_ok p _ _ C Loc Hv HC HL Ej) as [J1 J2].
      pose proof (joinRanges_unchanged Loc (joinTags C Loc)) as J3.
      destruct (joinRanges Loc (joinTags C Loc)) as [c ch]. cbn [fst snd] in *.
      assert (Hb : forall b, coversAny (done ++ c :: rest) b <-> coversAny (done ++ C :: rest) b \/ covers Loc b).
      { intros b. rewrite !coversAny_app, !coversAny_cons, J2. tauto. }
      split; [destruct done; discriminate|].
      split; [apply Forall_app; split; [auto|constructor; auto]|].
      split; [exact Hb|]. split.
      * intros Hch b. rewrite !coversAny_app, !coversAny_cons, (J3 Hch), joinTags_covers. tauto.
      * intros Hch. apply Forall2_app.
        { clear. induction done as [|[] ? ?]; constructor; auto. }
        constructor; [|clear; induction rest as [|[] ? ?]; constructor; auto].
        rewrite (J3 Hch). unfold joinTags. destruct (negb _); [|destruct C; reflexivity].
        destruct C as [? ? ? ? [] ? ? ?]; reflexivity.
    + set (k := if _ : bool then S ins else ins).
      specialize (IH (done ++ [C]) k ltac:(apply Forall_app; auto) Hr').
      rewrite <- app_assoc in IH. exact IH.
Qed.

Lemma ptr_eqb_refl p : ptr_eqb p p = true.
Proof. destruct p; simpl; auto. apply Nat.eqb_refl. Qed.
Lemma mfind_In p s l : mfind p s = Some l -> In (p, l) s.
Proof.
  induction s as [|[q x] s IH]; simpl; [discriminate|].
  destruct (ptr_eqb_spec p q); [intros [= ->]; left; congruence|auto].
Qed.
Lemma mfind_None p s : mfind p s = None <-> ~ In p (map fst s).
Proof.
  induction s as [|[q x] s IH]; simpl; [tauto|].
  destruct (ptr_eqb_spec p q); [split; [discriminate|intros H; exfalso; auto]|].
  rewrite IH. intuition congruence.
Qed.
Lemma In_mfind p s l : NoDup (map fst s) -> In (p, l) s -> mfind p s = Some l.
Proof.
  induction s as [|[q x] s IH]; simpl; [tauto|]. intros H. inversion H as [|? ? Hn Hd]; subst.
  intros [[= -> ->]|Hi]; [rewrite ptr_eqb_refl; auto|].
  destruct (ptr_eqb_spec p q); [|auto]. subst q. exfalso. apply Hn. apply in_map_iff. exists (p, l); auto.
Qed.
Lemma setCovers_mfind v s p b : setOk v s ->
  (setCovers s p b <-> exists l, mfind (Some p) s = Some l /\ coversAny l b).
Proof.
  intros [Hd _]. unfold setCovers, coversAny. split.
  - intros (l & r & H1 & H2 & H3). exists l. split; [apply In_mfind; auto|eauto].
  - intros (l & H1 & r & H2 & H3). exists l, r. split; [apply mfind_In; auto|auto].
Qed.
Lemma mreplace_keys p l s : map fst (mreplace p l s) = map fst s.
Proof.
  induction s as [|[q x] s IH]; simpl; auto. destruct (ptr_eqb_spec p q); simpl; congruence.
Qed.
Lemma mreplace_In p l s q x : NoDup (map fst s) -> In p (map fst s) ->
  (In (q, x) (mreplace p l s) <-> (q = p /\ x = l) \/ (q <> p /\ In (q, x) s)).
Proof.
  induction s as [|[k y] s IH]; simpl; [tauto|]. intros H Hp. inversion H as [|? ? Hn Hd]; subst.
  destruct (ptr_eqb_spec p k).
  - subst k. simpl. split.
    + intros [[= <- <-]|Hi]; [auto|]. right. split; [|auto]. intros ->. apply Hn. apply in_map_iff. exists (p, x); auto.
    + intros [[-> ->]|[H1 [[= <- <-]|H2]]]; auto. congruence.
  - assert (In p (map fst s)) by (destruct Hp; [congruence|auto]). simpl. rewrite IH by auto. split.
    + intros [[= <- <-]|[?|?]]; auto. tauto.
    + intros [?|[? [?|?]]]; auto.
Qed.

(** Insertion adds exactly the bytes of the location. *)
Lemma minsert_ok v s p Loc : viewsOk v -> setOk v s -> locOk v p Loc ->
  let '(s', ch, i) := minsert s Loc in
  setOk v s' /\
  (forall q b, setCovers s' q b <-> setCovers s q b \/ (q = p /\ covers Loc b)) /\
  (ch = false -> forall q b, setCovers s' q b <-> setCovers s q b).
Proof.
  intros Hv Hs HL. pose proof Hs as [Hd Hl]. unfold minsert. rewrite (sh_ptr _ _ _ _ HL).
  destruct (mfind (Some p) s) as [l|] eqn:Ef.
  - pose proof (mfind_In _ _ _ Ef) as Hin. destruct (Hl _ _ Hin) as (p' & Ep & Hne & Hok).
    injection Ep as <-.
    pose proof (insLoop_ok v p Loc (Hv p) HL l [] O (Forall_nil _) Hok) as HI.
    destruct (insLoop Loc [] l 0) as [[l' ch] i]. simpl in HI. destruct HI as (I1 & I2 & I3 & I4 & _).
    assert (Hp : In (Some p) (map fst s)) by (apply in_map_iff; exists (Some p, l); auto).
    assert (Hgen : forall (X : nat -> Z -> Prop), (forall q b, q <> p -> ~ X q b) ->
        (forall b, coversAny l' b <-> coversAny l b \/ X p b) ->
        forall q b, setCovers (mreplace (Some p) l' s) q b <-> setCovers s q b \/ X q b).
    { intros X HX HXp q b. unfold setCovers at 1. split.
      - intros (x & r & A & B & C). apply mreplace_In in A; auto. destruct A as [[A1 A2]|[A1 A2]].
        + injection A1 as ->. subst x. assert (G : coversAny l' b) by (exists r; auto).
          apply HXp in G. destruct G as [(r' & G1 & G2)|G]; [left|right; auto].
          exists l, r'. auto.
        + left. exists x, r. auto.
      - intros H. destruct (Nat.eq_dec q p) as [->|Hq].
        + assert (G : coversAny l' b).
          { apply HXp. destruct H as [(x & r & A & B & C)|H]; [left|auto].
            assert (x = l) by (apply In_mfind in A; congruence). subst x. exists r; auto. }
          destruct G as (r & G1 & G2). exists l', r. split; [apply mreplace_In; auto|auto].
        + destruct H as [(x & r & A & B & C)|H]; [|exfalso; eapply HX; eauto].
          exists x, r. split; [apply mreplace_In; auto; right; split; [congruence|auto]|auto]. }
    split; [|split].
    + split; [rewrite mreplace_keys; auto|]. intros q x Hx. apply mreplace_In in Hx; auto.
      destruct Hx as [[-> ->]|[_ Hx]]; [exists p; auto|apply Hl; auto].
    + apply (Hgen (fun q b => q = p /\ covers Loc b)); [tauto|]. intros b. rewrite I3. tauto.
    + intros Hch q b. rewrite (Hgen (fun _ _ => False)); [tauto|tauto|].
      intros b'. rewrite (I4 Hch). tauto.
  - assert (Hcov : forall q b, setCovers (s ++ [(Some p, [Loc])]) q b <-> setCovers s q b \/ (q = p /\ covers Loc b)).
    { intros q b. unfold setCovers. split.
      - intros (x & r & A & B & C). apply in_app_or in A. destruct A as [A|[A|[]]]; [left; eauto|].
        injection A as <- <-. destruct B as [<-|[]]. right; auto.
      - intros [(x & r & A & B & C)|[-> H]].
        + exists x, r. split; [apply in_or_app; auto|auto].
        + exists [Loc], Loc. split; [apply in_or_app; simpl; auto|simpl; auto]. }
    split; [|split; [exact Hcov|discriminate]]. split.
    + rewrite map_app. simpl. apply mfind_None in Ef.
      assert (N : NoDup (rev (Some p :: rev (map fst s)))).
      { apply NoDup_rev. constructor; [rewrite <- in_rev; auto|apply NoDup_rev; auto]. }
      simpl in N. rewrite rev_involutive in N. exact N.
    + intros q x Hx. apply in_app_or in Hx. destruct Hx as [Hx|[Hx|[]]]; [apply Hl; auto|].
      injection Hx as <- <-. exists p. repeat split; [discriminate|]. constructor; auto.
Qed.
Lemma setOk_nil v : setOk v [].
Proof. split; [constructor|simpl; tauto]. Qed.
Lemma msInsert_ok v s p Loc : viewsOk v -> setOk v s -> locOk v p Loc ->
  setOk v (msInsert s Loc) /\
  (forall q b, setCovers (msInsert s Loc) q b <-> setCovers s q b \/ (q = p /\ covers Loc b)).
Proof.
  intros Hv Hs HL. pose proof (minsert_ok v s p Loc Hv Hs HL) as H. unfold msInsert.
  destruct (minsert s Loc) as [[s' ch] i]. simpl. tauto.
Qed.
Lemma built_setOk v s : viewsOk v -> built v s -> setOk v s.
Proof. intros Hv H. induction H; [apply setOk_nil|]. eapply msInsert_ok; eauto. Qed.
Lemma minsertAll_ok v : viewsOk v -> forall ls s,
  setOk v s -> Forall (fun r => exists p, locOk v p r) ls ->
  let '(s', ch) := minsertAll s ls in
  setOk v s' /\
  (forall q b, setCovers s' q b <-> setCovers s q b \/ exists r, In r ls /\ rPtr r = Some q /\ covers r b) /\
  (ch = false -> forall q b, setCovers s' q b <-> setCovers s q b).
Proof.
  intros Hv. induction ls as [|x ls IH]; intros s Hs Hl; cbn [minsertAll].
  - split; [auto|]. split; [|tauto]. intros q b. split; [auto|]. intros [H|(r & [] & _)]; auto.
  - inversion Hl as [|? ? [p Hx] Hl']; subst.
    pose proof (minsert_ok v s p x Hv Hs Hx) as H1. destruct (minsert s x) as [[s1 c1] i].
    destruct H1 as (A1 & A2 & A3).
    specialize (IH s1 A1 Hl'). destruct (minsertAll s1 ls) as [s2 c2]. destruct IH as (B1 & B2 & B3).
    pose proof (sh_ptr _ _ _ _ Hx) as Hp.
    split; [auto|]. split.
    + intros q b. rewrite B2, A2. split.
      * intros [[H|[-> H]]|(r & H1 & H2 & H3)]; [auto|right; exists x; simpl; auto|right; exists r; simpl; auto].
      * intros [H|(r & [<-|H1] & H2 & H3)]; [auto|left; right; split; [congruence|auto]|right; exists r; auto].
    + intros Hc q b. apply orb_false_iff in Hc. destruct Hc. rewrite B3, A3; tauto.
Qed.
(** Insertion of every location of a well-formed set. *)
Lemma allLocs_ok v s : setOk v s -> Forall (fun r => exists p, locOk v p r) (allLocs s).
Proof.
  intros [_ H]. apply Forall_forall. intros r Hr. unfold allLocs in Hr. apply in_flat_map in Hr.
  destruct Hr as ([q l] & H1 & H2). simpl in H2. destruct (H _ _ H1) as (p & _ & _ & Hl).
  exists p. rewrite Forall_forall in Hl. auto.
Qed.
Lemma allLocs_covers v s q b : setOk v s ->
  (setCovers s q b <-> exists r, In r (allLocs s) /\ rPtr r = Some q /\ covers r b).
Proof.
  intros [_ H]. unfold setCovers, allLocs. split.
  - intros (l & r & A & B & C). exists r. split; [apply in_flat_map; exists (Some q, l); auto|].
    destruct (H _ _ A) as (p & E & _ & Hl). injection E as <-. rewrite Forall_forall in Hl.
    split; [apply (sh_ptr _ _ _ _ (Hl r B))|auto].
  - intros (r & A & B & C). apply in_flat_map in A. destruct A as ([k l] & A1 & A2). simpl in A2.
    destruct (H _ _ A1) as (p & -> & _ & Hl). rewrite Forall_forall in Hl.
    pose proof (sh_ptr _ _ _ _ (Hl r A2)) as Hp. assert (p = q) by congruence. subst p. exists l, r. auto.
Qed.
Lemma mmerge_ok v s With : viewsOk v -> setOk v s -> setOk v With ->
  let '(s', ch) := mmerge s With in
  setOk v s' /\ (forall q b, setCovers s' q b <-> setCovers s q b \/ setCovers With q b) /\
  (ch = false -> forall q b, setCovers s' q b <-> setCovers s q b).
Proof.
  intros Hv Hs Hw. pose proof (minsertAll_ok v Hv (allLocs With) s Hs (allLocs_ok v With Hw)) as H.
  unfold mmerge. destruct (minsertAll s (allLocs With)) as [s' ch]. destruct H as (A & B & C).
  split; [auto|]. split; [|auto]. intros q b. rewrite B, (allLocs_covers v With q b Hw). tauto.
Qed.

(** Membership of a byte is decidable. *)
Fixpoint allIdx (ds : list dim) : list (list Z) :=
  match ds with
  | [] => [[]]
  | d :: ds => flat_map (fun k => map (cons (dStart d + dStep d * Z.of_nat k)) (allIdx ds))
                        (seq 0 (Z.to_nat (dTrip d)))
  end.
Lemma allIdx_ok ds : forall idx, In idx (allIdx ds) <-> inDims ds idx.
Proof.
  induction ds as [|d ds IH]; intros idx; simpl.
  - split; [intros [<-|[]]; constructor|]. intros H. inversion H. auto.
  - rewrite in_flat_map. split.
    + intros (k & Hk & H). apply in_map_iff in H. destruct H as (i & <- & H). apply in_seq in Hk.
      constructor; [exists (Z.of_nat k); split; [lia|auto]|apply IH; auto].
    + intros H. inversion H as [|? i ? l (k & Hk & ->) Hl]; subst. exists (Z.to_nat k).
      split; [apply in_seq; lia|]. apply in_map_iff. exists l.
      split; [rewrite Z2Nat.id by lia; auto|apply IH; auto].
Qed.
Lemma covers_dec r b : covers r b \/ ~ covers r b.
Proof.
  unfold covers. destruct (rCollapsed r).
  - destruct (existsb (fun idx => (0 <=? b - linear (map dSize (rDims r)) idx * getValue (rHi r)) &&
       (b - linear (map dSize (rDims r)) idx * getValue (rHi r) <? getValue (rHi r))) (allIdx (rDims r))) eqn:E.
    + left. apply existsb_exists in E. destruct E as (idx & H1 & H2). apply allIdx_ok in H1.
      exists idx, (b - linear (map dSize (rDims r)) idx * getValue (rHi r)). split; [auto|lia].
    + right. intros (idx & k & H1 & H2 & H3). apply allIdx_ok in H1.
      assert (X : existsb (fun idx => (0 <=? b - linear (map dSize (rDims r)) idx * getValue (rHi r)) &&
       (b - linear (map dSize (rDims r)) idx * getValue (rHi r) <? getValue (rHi r))) (allIdx (rDims r)) = true).
      { apply existsb_exists. exists idx. split; auto. lia. }
      congruence.
  - destruct (Z_le_gt_dec (getValue (rLo r)) b); [|right; lia].
    destruct (rHi r) as [pp n| |]; simpl; auto. destruct (Z_lt_le_dec b n); [left; auto|right; lia].
Qed.
Lemma coversAny_dec rs b : coversAny rs b \/ ~ coversAny rs b.
Proof.
  induction rs as [|r rs IH]; [right; rewrite coversAny_nil; auto|].
  rewrite coversAny_cons. destruct (covers_dec r b), IH; tauto.
Qed.

(** ** Queries *)
Section Dio.
Variable dio : Z -> Z -> Z -> option (Z * Z * Z * Z).
Hypothesis Hdio : dioSpec dio.
Variable v : views.
Hypothesis Hv : viewsOk v.

Lemma interR_ok p L R : locOk v p L -> locOk v p R ->
  let '(res, RC) := interR dio L R in
  Forall (locOk v p) RC /\
  (forall b, coversAny RC b -> covers R b /\ ~ covers L b) /\
  match res with
  | INone => forall b, covers L b -> covers R b -> False
  | IMaybe => True
  | IExact r => locOk v p r /\ (forall b, covers r b <-> covers L b /\ covers R b) /\
      (forall b, coversAny RC b <-> covers R b /\ ~ covers L b)
  end.
Proof.
  intros HL HR. unfold interR.
  pose proof (intersectRanges_ok dio Hdio p _ _ L R false true Threshold (Hv p) HL HR) as H.
  destruct (intersectRanges dio L R false true Threshold) as [[res LC] RC].
  destruct H as (_ & A & _ & B & C). split; [auto|]. split; [auto|].
  destruct res; auto. destruct C as (C1 & C2 & _ & C3). auto.
Qed.
Lemma inter_ok p L R : locOk v p L -> locOk v p R ->
  match inter dio L R with
  | INone => forall b, covers L b -> covers R b -> False
  | IMaybe => True
  | IExact r => locOk v p r /\ (forall b, covers r b <-> covers L b /\ covers R b)
  end.
Proof.
  intros HL HR. unfold inter.
  pose proof (intersectRanges_ok dio Hdio p _ _ L R false false Threshold (Hv p) HL HR) as H.
  destruct (intersectRanges dio L R false false Threshold) as [[res LC] RC].
  destruct H as (_ & _ & _ & _ & C). simpl. destruct res; auto. tauto.
Qed.

(** Bytes of the tails that are not covered by the location stay; nothing is
    added; a tail is kept whole only if the intersection is not known. *)
Lemma tailStep_ok p C : locOk v p C -> forall Tails, Forall (locOk v p) Tails ->
  let '(N, hit) := tailStep dio C Tails in
  Forall (locOk v p) N /\
  (forall b, coversAny N b -> coversAny Tails b) /\
  (forall b, coversAny Tails b -> ~ covers C b -> coversAny N b) /\
  ((forall T, In T Tails -> fst (interR dio C T) <> IMaybe) ->
    forall b, coversAny N b -> ~ covers C b) /\
  (hit = false -> forall T, In T Tails -> match fst (interR dio C T) with IExact _ => False | _ => True end) /\
  (hit = true -> exists T r, In T Tails /\ fst (interR dio C T) = IExact r).
Proof.
  intros HC. induction Tails as [|T Tails IH]; intros HT; cbn [tailStep].
  - split; [auto|]. split; [auto|]. split; [auto|]. split; [intros _ b H; apply coversAny_nil in H; tauto|].
    split; [intros _ T []|discriminate].
  - inversion HT as [|? ? HT1 HT2]; subst. specialize (IH HT2).
    destruct (tailStep dio C Tails) as [rest hit]. destruct IH as (I1 & I2 & I3 & I4 & I5 & I6).
    pose proof (interR_ok p C T HC HT1) as H. destruct (interR dio C T) as [res RC] eqn:Er.
    destruct H as (A & B & D).
    destruct res as [| |r].
    + split; [apply Forall_app; auto|].
      split; [intros b; rewrite coversAny_app, !coversAny_cons; intros [H|[H|H]]; [left; apply B; auto|auto|right; auto]|].
      split; [intros b; rewrite coversAny_app, !coversAny_cons; intros [H|H] Hn; auto|].
      split; [|split].
      * intros Hm b. rewrite coversAny_app, !coversAny_cons. intros [H|[H|H]].
        { apply B; auto. } { intros Hc. eapply D; eauto. }
        { apply (I4 (fun T' HT' => Hm T' (or_intror HT'))); auto. }
      * intros Hh T' [<-|HT']; [rewrite Er; exact I|apply (I5 Hh T' HT')].
      * intros Hh. destruct (I6 Hh) as (T' & r & H1 & H2). exists T', r. simpl. auto.
    + split; [apply Forall_app; auto|].
      split; [intros b; rewrite coversAny_app, !coversAny_cons; intros [H|[H|H]]; [left; apply B; auto|auto|right; auto]|].
      split; [intros b; rewrite coversAny_app, !coversAny_cons; intros [H|H] Hn; auto|].
      split; [|split].
      * intros Hm. exfalso. apply (Hm T); [left; auto|rewrite Er; reflexivity].
      * intros Hh T' [<-|HT']; [rewrite Er; exact I|apply (I5 Hh T' HT')].
      * intros Hh. destruct (I6 Hh) as (T' & r & H1 & H2). exists T', r. simpl. auto.
    + destruct D as (D1 & D2 & D3).
      split; [apply Forall_app; auto|].
      split; [intros b; rewrite coversAny_app, !coversAny_cons; intros [H|H]; [left; apply B; auto|auto]|].
      split; [intros b; rewrite coversAny_app, !coversAny_cons; intros [H|H] Hn; [left; apply D3; auto|auto]|].
      split; [|split; [discriminate|intros _; exists T, r; rewrite Er; simpl; auto]].
      intros Hm b. rewrite coversAny_app. intros [H|H]; [apply B; auto|].
      apply (I4 (fun T' HT' => Hm T' (or_intror HT'))); auto.
Qed.

Lemma containLoop_ok p : forall l Tails, Forall (locOk v p) l -> Forall (locOk v p) Tails ->
  containLoop dio l Tails = true -> forall b, coversAny Tails b -> coversAny l b.
Proof.
  induction l as [|c l IH]; intros Tails Hl HT.
  - destruct Tails; [|discriminate]. intros _ b H. apply coversAny_nil in H. tauto.
  - inversion Hl as [|? ? Hc Hl']; subst.
    destruct Tails as [|T Tails]; [intros _ b H; apply coversAny_nil in H; tauto|].
    cbn [containLoop]. pose proof (tailStep_ok p c Hc (T :: Tails) HT) as H.
    destruct (tailStep dio c (T :: Tails)) as [N hit]. destruct H as (A & B & D & _). cbn [fst].
    intros Hcl b Hb. rewrite coversAny_cons.
    destruct (covers_dec c b) as [Hc1|Hc1]; [auto|]. right. eapply IH; eauto.
Qed.

Lemma contain_ok s p Loc : setOk v s -> locOk v p Loc -> contain dio s Loc = true ->
  forall b, covers Loc b -> setCovers s p b.
Proof.
  intros Hs HL. unfold contain. rewrite (sh_ptr _ _ _ _ HL).
  destruct (mfind (Some p) s) as [l|] eqn:Ef; [|discriminate]. intros Hc b Hb.
  apply (setCovers_mfind v); auto. exists l. split; [auto|].
  destruct (proj2 Hs _ _ (mfind_In _ _ _ Ef)) as (p' & E & _ & Hl). injection E as <-.
  apply (containLoop_ok p l [Loc]); auto. exists Loc. simpl; auto.
Qed.
Lemma overlap_ok s p Loc : setOk v s -> locOk v p Loc -> overlap dio s Loc = false ->
  forall b, covers Loc b -> ~ setCovers s p b.
Proof.
  intros Hs HL. unfold overlap. rewrite (sh_ptr _ _ _ _ HL). intros Ho b Hb Hc.
  apply (setCovers_mfind v) in Hc; auto. destruct Hc as (l & Ef & r & Hr & Hrb). rewrite Ef in Ho.
  destruct (proj2 Hs _ _ (mfind_In _ _ _ Ef)) as (p' & E & _ & Hl). injection E as <-.
  rewrite Forall_forall in Hl.
  pose proof (inter_ok p r Loc (Hl r Hr) HL) as H.
  assert (X : existsb (fun c => match inter dio c Loc with INone => false | _ => true end) l = true).
  2:{ congruence. }
  apply existsb_exists. exists r. split; [auto|]. destruct (inter dio r Loc); auto.
  exfalso. eapply H; eauto.
Qed.
(** The locations reported by findCoveredBy are the exact intersections. *)
Lemma coveredList_ok p l Loc : Forall (locOk v p) l -> locOk v p Loc ->
  Forall (locOk v p) (coveredList dio l Loc) /\
  (forall b, coversAny (coveredList dio l Loc) b -> covers Loc b /\ coversAny l b) /\
  ((forall c, In c l -> inter dio c Loc <> IMaybe) ->
    forall b, covers Loc b -> coversAny l b -> coversAny (coveredList dio l Loc) b).
Proof.
  intros Hl HL. induction Hl as [|c l Hc Hl IH]; unfold coveredList in *; simpl.
  - split; [constructor|]. split; [intros b H; apply coversAny_nil in H; tauto|auto].
  - destruct IH as (A & B & C). pose proof (inter_ok p c Loc Hc HL) as H.
    split; [|split].
    + apply Forall_app. split; [|auto]. destruct (inter dio c Loc); auto. constructor; [tauto|constructor].
    + intros b. rewrite coversAny_app, coversAny_cons. intros [Hx|Hx]; [|apply B in Hx; tauto].
      destruct (inter dio c Loc); try (apply coversAny_nil in Hx; tauto).
      apply coversAny_cons in Hx. rewrite coversAny_nil in Hx. destruct Hx as [Hx|[]].
      apply H in Hx. tauto.
    + intros Hm b Hb. rewrite coversAny_app, coversAny_cons. intros [Hx|Hx].
      * left. specialize (Hm c (or_introl eq_refl)). destruct (inter dio c Loc); [exfalso; eapply H; eauto|congruence|].
        apply coversAny_cons. left. apply H. auto.
      * right. apply C; auto.
Qed.

(** ** Subtraction *)
Lemma subLoop_ok p : forall l Tails, Forall (locOk v p) l -> Forall (locOk v p) Tails ->
  let '(N, hit) := subLoop dio l Tails in
  Forall (locOk v p) N /\
  (forall b, coversAny N b -> coversAny Tails b) /\
  (forall b, coversAny Tails b -> ~ coversAny l b -> coversAny N b).
Proof.
  induction l as [|c l IH]; intros Tails Hl HT; cbn [subLoop].
  - repeat split; auto.
  - inversion Hl as [|? ? Hc Hl']; subst.
    pose proof (tailStep_ok p c Hc Tails HT) as H. destruct (tailStep dio c Tails) as [t1 h1].
    destruct H as (A & B & C & _).
    specialize (IH t1 Hl' A). destruct (subLoop dio l t1) as [t2 h2]. destruct IH as (I1 & I2 & I3).
    split; [auto|]. split; [auto|]. intros b Hb. rewrite coversAny_cons. intros Hn. apply I3; auto.
Qed.
(** Exactness: if an unknown intersection never occurs. *)
Lemma subLoop_exact p (P : range -> Prop) :
  (forall a c, P a -> P c -> fst (interR dio a c) <> IMaybe /\ Forall P (snd (interR dio a c))) ->
  forall l Tails, Forall (locOk v p) l -> Forall (locOk v p) Tails -> Forall P l -> Forall P Tails ->
  let '(N, hit) := subLoop dio l Tails in
  (forall b, coversAny N b -> ~ coversAny l b) /\
  (hit = false -> forall b, coversAny Tails b -> ~ coversAny l b) /\
  Forall P N.
Proof.
  intros HP.
  assert (HPt : forall c Tails, P c -> Forall P Tails -> Forall P (fst (tailStep dio c Tails))).
  { intros c Tails Hc HT. induction HT as [|T Tails HT1 HT2 IH]; simpl; [constructor|].
    destruct (tailStep dio c Tails) as [rest hit]. destruct (HP c T Hc HT1) as [_ H].
    destruct (interR dio c T) as [res RC]. simpl in *.
    destruct res; simpl; apply Forall_app; auto. }
  induction l as [|c l IH]; intros Tails Hl HT Pl PT; cbn [subLoop].
  - split; [intros b _ H; apply coversAny_nil in H; auto|]. split; [|auto].
    intros _ b _ H. apply coversAny_nil in H. auto.
  - inversion Hl as [|? ? Hc Hl']; subst. inversion Pl as [|? ? Pc Pl']; subst.
    pose proof (tailStep_ok p c Hc Tails HT) as H. pose proof (HPt c Tails Pc PT) as PT'.
    destruct (tailStep dio c Tails) as [t1 h1]. simpl in PT'.
    destruct H as (A & B & C & D & E & _).
    specialize (IH t1 Hl' A Pl' PT'). 
    pose proof (subLoop_ok p l t1 Hl' A) as HS.
    destruct (subLoop dio l t1) as [t2 h2]. destruct IH as (I1 & I2 & I3). destruct HS as (_ & S2 & _).
    assert (Hm : forall T, In T Tails -> fst (interR dio c T) <> IMaybe).
    { intros T HT1. rewrite Forall_forall in PT. apply HP; auto. }
    split; [|split; [|auto]].
    + intros b Hb. rewrite coversAny_cons. intros [Hx|Hx]; [|eapply I1; eauto].
      revert Hx. apply (D Hm). auto.
    + intros Hh b Hb. apply orb_false_iff in Hh. destruct Hh as [H1 H2].
      assert (Hcb : ~ covers c b).
      { intros Hcb. destruct Hb as (T & HT1 & HT2). specialize (E H1 T HT1). specialize (Hm T HT1).
        rewrite Forall_forall in HT. pose proof (interR_ok p c T Hc (HT T HT1)) as HI.
        destruct (interR dio c T) as [[| |r] RC]; simpl in *; try tauto. destruct HI as (_ & _ & HI).
        eapply HI; eauto. }
      rewrite coversAny_cons. intros [Hx|Hx]; [auto|]. eapply (I2 H2); eauto.
Qed.
Lemma subtractFrom_ok s p Loc : setOk v s -> locOk v p Loc ->
  match subtractFrom dio s Loc with
  | (_, None) => forall b, ~ setCovers s p b
  | (_, Some N) =>
      Forall (locOk v p) N /\
      (forall b, coversAny N b -> covers Loc b) /\
      (forall b, covers Loc b -> ~ setCovers s p b -> coversAny N b)
  end.
Proof.
  intros Hs HL. unfold subtractFrom. rewrite (sh_ptr _ _ _ _ HL).
  destruct (mfind (Some p) s) as [l|] eqn:Ef.
  - destruct (proj2 Hs _ _ (mfind_In _ _ _ Ef)) as (p' & E & _ & Hl). injection E as <-.
    pose proof (subLoop_ok p l [Loc] Hl ltac:(constructor; [assumption|constructor])) as H.
    destruct (subLoop dio l [Loc]) as [N h]. destruct H as (A & B & C).
    assert (H1 : forall b, coversAny [Loc] b <-> covers Loc b)
      by (intros b; rewrite coversAny_cons, coversAny_nil; tauto).
    split; [auto|]. split; [intros b Hb; apply H1; auto|].
    intros b Hb Hn. apply C; [apply H1; auto|]. intros Hc. apply Hn.
    apply (setCovers_mfind v); auto. exists l; auto.
  - intros b Hc. apply (setCovers_mfind v) in Hc; auto. destruct Hc as (l & H & _). congruence.
Qed.
Lemma subtractFrom_exact s p Loc (P : range -> Prop) : setOk v s -> locOk v p Loc ->
  (forall a c, P a -> P c -> fst (interR dio a c) <> IMaybe /\ Forall P (snd (interR dio a c))) ->
  (forall l, In (Some p, l) s -> Forall P l) -> P Loc ->
  match subtractFrom dio s Loc with
  | (false, _) => forall b, covers Loc b -> ~ setCovers s p b
  | (true, None) => False
  | (true, Some N) => forall b, coversAny N b <-> covers Loc b /\ ~ setCovers s p b
  end.
Proof.
  intros Hs HL HP Hall PL. pose proof (subtractFrom_ok s p Loc Hs HL) as HO.
  unfold subtractFrom in *. rewrite (sh_ptr _ _ _ _ HL) in *.
  destruct (mfind (Some p) s) as [l|] eqn:Ef.
  - destruct (proj2 Hs _ _ (mfind_In _ _ _ Ef)) as (p' & E & _ & Hl). injection E as <-.
    pose proof (subLoop_exact p P HP l [Loc] Hl ltac:(constructor; [assumption|constructor])
       (Hall l (mfind_In _ _ _ Ef)) ltac:(constructor; [assumption|constructor])) as H.
    destruct (subLoop dio l [Loc]) as [N h]. destruct H as (A & B & _). destruct HO as (_ & O1 & O2).
    assert (Hsc : forall b, setCovers s p b -> coversAny l b).
    { intros b Hc. apply (setCovers_mfind v) in Hc; auto. destruct Hc as (l' & H & Hx). congruence. }
    assert (H1 : forall b, coversAny [Loc] b <-> covers Loc b)
      by (intros b; rewrite coversAny_cons, coversAny_nil; tauto).
    destruct h.
    + intros b. split; [|intros [? ?]; auto]. intros Hb. split; [auto|]. intros Hc. apply (A b Hb). auto.
    + intros b Hb Hc. apply (B eq_refl b); [apply H1; auto|auto].
  - intros b _. apply HO.
Qed.

(** ** Intersection of sets *)
Lemma interOne_ok With s ch Loc p : setOk v With -> setOk v s -> locOk v p Loc ->
  let '(s', _) := interOne dio With (s, ch) Loc in
  setOk v s' /\
  (forall q b, setCovers s' q b -> setCovers s q b \/ (q = p /\ covers Loc b /\ setCovers With p b)) /\
  (forall q b, setCovers s q b -> setCovers s' q b) /\
  ((forall l c, In (Some p, l) With -> In c l -> inter dio c Loc <> IMaybe) ->
   forall b, covers Loc b -> setCovers With p b -> setCovers s' p b).
Proof.
  intros HW Hs HL. unfold interOne. pose proof (sh_ptr _ _ _ _ HL) as Hp.
  destruct (contain dio With Loc) eqn:Ec.
  - destruct (msInsert_ok v s p Loc Hv Hs HL) as [A B]. split; [auto|].
    pose proof (contain_ok With p Loc HW HL Ec) as Hc.
    split; [intros q b H; apply B in H; destruct H as [H|[-> H]]; auto|].
    split; [intros q b H; apply B; auto|]. intros _ b H _. apply B. auto.
  - unfold findCoveredBy. rewrite Hp. destruct (mfind (Some p) With) as [l|] eqn:Ef; cbn [snd].
    2:{ split; [auto|]. split; [auto|]. split; [auto|]. intros _ b _ H.
        apply (setCovers_mfind v) in H; auto. destruct H as (l & H & _). congruence. }
    pose proof (mfind_In _ _ _ Ef) as Hin.
    destruct (proj2 HW _ _ Hin) as (p' & E & _ & Hl). injection E as <-.
    destruct (coveredList_ok p l Loc Hl HL) as (A & B & C).
    assert (Hsc : forall b, setCovers With p b <-> coversAny l b).
    { intros b. rewrite (setCovers_mfind v) by auto. split; [intros (l' & H & Hx); congruence|eauto]. }
    destruct (coveredList dio l Loc) as [|x ls] eqn:El.
    + split; [auto|]. split; [auto|]. split; [auto|]. intros Hm b H1 H2. exfalso.
      apply Hsc in H2. specialize (C (fun c Hc => Hm l c Hin Hc) b H1 H2). apply coversAny_nil in C. auto.
    + rewrite <- El in *. clear El.
      assert (Hex : Forall (fun r => exists p, locOk v p r) (coveredList dio l Loc))
        by (eapply Forall_impl; [|exact A]; intros; eauto).
      pose proof (minsertAll_ok v Hv (coveredList dio l Loc) s Hs Hex) as HI.
      destruct (minsertAll s (coveredList dio l Loc)) as [s' c]. destruct HI as (I1 & I2 & _).
      split; [auto|]. split; [|split].
      * intros q b H. apply I2 in H. destruct H as [H|(r & H1 & H2 & H3)]; [auto|right].
        rewrite Forall_forall in A. pose proof (sh_ptr _ _ _ _ (A r H1)). assert (q = p) by congruence. subst q.
        split; [auto|]. destruct (B b) as [G1 G2]; [exists r; auto|]. split; [auto|apply Hsc; auto].
      * intros q b H. apply I2. auto.
      * intros Hm b H1 H2. apply I2. right. apply Hsc in H2.
        destruct (C (fun c Hc => Hm l c Hin Hc) b H1 H2) as (r & R1 & R2). exists r. split; [auto|].
        rewrite Forall_forall in A. split; [apply (sh_ptr _ _ _ _ (A r R1))|auto].
Qed.
Lemma mintersect_ok s With : setOk v s -> setOk v With ->
  let s' := fst (mintersect dio s With) in
  setOk v s' /\
  (forall q b, setCovers s' q b -> setCovers s q b /\ setCovers With q b) /\
  ((forall q l l' c c', In (q, l) With -> In (q, l') s -> In c l -> In c' l' -> inter dio c c' <> IMaybe) ->
   forall q b, setCovers s' q b <-> setCovers s q b /\ setCovers With q b).
Proof.
  intros Hs HW. unfold mintersect.
  pose proof (allLocs_ok v s Hs) as Hall.
  assert (G : forall ls acc ch, Forall (fun r => exists p, locOk v p r) ls -> setOk v acc ->
    let s' := fst (fold_left (interOne dio With) ls (acc, ch)) in
    setOk v s' /\
    (forall q b, setCovers s' q b -> setCovers acc q b \/
        ((exists r, In r ls /\ rPtr r = Some q /\ covers r b) /\ setCovers With q b)) /\
    (forall q b, setCovers acc q b -> setCovers s' q b) /\
    ((forall r q l c, In r ls -> rPtr r = Some q -> In (Some q, l) With -> In c l -> inter dio c r <> IMaybe) ->
     forall r q b, In r ls -> rPtr r = Some q -> covers r b -> setCovers With q b -> setCovers s' q b)).
  { induction ls as [|x ls IH]; intros acc ch Hls Hacc; cbn [fold_left fst].
    - split; [auto|]. split; [auto|]. split; [auto|]. intros _ r q b [].
    - inversion Hls as [|? ? [p Hx] Hls']; subst.
      pose proof (interOne_ok With acc ch x p HW Hacc Hx) as H.
      destruct (interOne dio With (acc, ch) x) as [s1 c1]. destruct H as (A & B & C & D).
      destruct (IH s1 c1 Hls' A) as (I1 & I2 & I3 & I4).
      pose proof (sh_ptr _ _ _ _ Hx) as Hp.
      split; [auto|]. split; [|split].
      + intros q b H. apply I2 in H. destruct H as [H|[(r & R1 & R2 & R3) H]].
        * apply B in H. destruct H as [H|(-> & H1 & H2)]; [auto|right]. split; [exists x; simpl; auto|auto].
        * right. split; [exists r; simpl; auto|auto].
      + intros q b H. auto.
      + intros Hm r q b [<-|Hr] Hq Hb Hw.
        * assert (q = p) by congruence. subst q. apply I3. apply D; auto.
          intros l c Hl Hc. apply (Hm x p l c); simpl; auto.
        * apply (I4 (fun r' q' l' c' a1 a2 a3 a4 => Hm r' q' l' c' (or_intror a1) a2 a3 a4) r q b); auto. }
  destruct (G (allLocs s) [] false Hall (setOk_nil v)) as (A & B & _ & D).
  assert (Hsub : forall q b, setCovers (fst (fold_left (interOne dio With) (allLocs s) ([], false))) q b ->
     setCovers s q b /\ setCovers With q b).
  { intros q b H. apply B in H. destruct H as [(l & r & [] & _)|[H1 H2]]. split; [|auto].
    apply (allLocs_covers v); auto. }
  split; [auto|]. split; [auto|]. intros Hm q b. split; [auto|].
  intros [H1 H2]. apply (allLocs_covers v) in H1; auto. destruct H1 as (r & R1 & R2 & R3).
  apply (D) with (r := r); auto.
  intros r' q' l c Hr' Hq' Hl Hc. unfold allLocs in Hr'. apply in_flat_map in Hr'.
  destruct Hr' as ([k l'] & K1 & K2). simpl in K2.
  destruct (proj2 Hs _ _ K1) as (p' & -> & _ & Hl'). rewrite Forall_forall in Hl'.
  pose proof (sh_ptr _ _ _ _ (Hl' r' K2)). assert (p' = q') by congruence. subst p'.
  apply (Hm (Some q') l l'); auto.
Qed.
End Dio.
