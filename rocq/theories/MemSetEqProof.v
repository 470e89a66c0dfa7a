(** Memory sets: equality, and the cases in which intersections are always known. *)
From Coq Require Import ZArith Bool List Lia.
From Verif Require Import RangeModel RangeSpec RangeProof RangeBytes MemSetModel MemSetSpec MemSetProof.
Import ListNotations.
Open Scope Z_scope.

(** ** Equality of sets of byte ranges *)
Definition scalar (r : range) : Prop := rCollapsed r = false /\ hasValue (rLo r) = true.
Lemma sizecmp_gt_ex a x : hasValue x = true -> sizecmp a x > 0 -> below (getValue x) a.
Proof.
  unfold sizecmp. destruct a as [p n| |], x as [q m| |]; simpl; auto; try discriminate. intros _.
  destruct (Bool.eqb p q && (n =? m)) eqn:E; [lia|].
  destruct (Z.ltb_spec n m); [lia|]. destruct (Z.eqb_spec n m); lia.
Qed.
Lemma sizecmp_lt_ex a x : hasValue a = true -> sizecmp a x < 0 -> below (getValue a) x.
Proof.
  unfold sizecmp. destruct a as [p n| |], x as [q m| |]; simpl; auto; try discriminate. intros _.
  destruct (Bool.eqb p q && (n =? m)) eqn:E; [lia|].
  destruct (Z.ltb_spec n m); [lia|]. destruct (Z.eqb_spec n m); lia.
Qed.
Lemma below_le b c h : b <= c -> below c h -> below b h.
Proof. destruct h; simpl; auto; lia. Qed.
Lemma sanStep_ok acc x : Forall scalar acc -> scalar x ->
  Forall scalar (sanStep acc x) /\
  (forall b, coversAny (sanStep acc x) b <-> coversAny acc b \/ covers x b).
Proof.
  intros Ha Hx. unfold sanStep. destruct acc as [|y acc].
  - split; [repeat constructor; apply Hx|]. intros b. rewrite coversAny_cons. tauto.
  - inversion Ha as [|? ? Hy Ha']; subst.
    destruct (_ && _) eqn:E.
    + apply andb_true_iff in E. destruct E as [E1 E2]. rewrite Z.gtb_lt in E1. rewrite Z.ltb_lt in E2.
      destruct Hx as [X1 X2], Hy as [Y1 Y2].
      pose proof (sizecmp_gt_ex (rHi y) (rLo x) X2 ltac:(lia)) as F1.
      pose proof (sizecmp_lt_ex _ _ Y2 E2) as F2.
      destruct (sizecmp_known (rLo x) (rLo y) X2 Y2) as [K1 K2].
      assert (Hlo : hasValue (smin (rLo x) (rLo y)) = true /\
                    getValue (smin (rLo x) (rLo y)) = Z.min (getValue (rLo x)) (getValue (rLo y))).
      { unfold smin. destruct (Z.gtb_spec (sizecmp (rLo x) (rLo y)) 0); split; auto; lia. }
      assert (Hhi : forall b, below b (smax (rHi x) (rHi y)) <-> below b (rHi x) \/ below b (rHi y)).
      { intros b. unfold smax. destruct (Z.ltb_spec (sizecmp (rHi x) (rHi y)) 0).
        - split; [auto|]. intros [H1|H1]; auto. apply sizecmp_le_below with (rHi x); auto; lia.
        - split; [auto|]. intros [H1|H1]; auto. apply sizecmp_ge_below with (rHi y); auto; lia. }
      split.
      * constructor; [|auto]. split; simpl; [auto|apply Hlo].
      * intros b. rewrite !coversAny_cons. unfold covers; simpl. rewrite X1, Y1.
        destruct Hlo as [_ ->]. rewrite Hhi.
        assert (T1 : b < getValue (rLo x) -> below b (rHi y)) by (intros; apply (below_le b (getValue (rLo x))); auto; lia).
        assert (T2 : b < getValue (rLo y) -> below b (rHi x)) by (intros; apply (below_le b (getValue (rLo y))); auto; lia).
        clear - T1 T2.
        destruct (Z_lt_le_dec b (getValue (rLo x))), (Z_lt_le_dec b (getValue (rLo y))); intuition lia.
    + split; [constructor; auto|]. intros b. rewrite !coversAny_cons. tauto.
Qed.
Lemma sanFold_ok l : Forall scalar l -> forall acc, Forall scalar acc ->
  forall b, coversAny (fold_left sanStep l acc) b <-> coversAny acc b \/ coversAny l b.
Proof.
  induction 1 as [|x l Hx Hl IH]; intros acc Ha b; simpl.
  - rewrite coversAny_nil. tauto.
  - destruct (sanStep_ok acc x Ha Hx) as [A B]. rewrite IH, B, coversAny_cons by auto. tauto.
Qed.
Lemma coversAny_rev l b : coversAny (rev l) b <-> coversAny l b.
Proof.
  unfold coversAny. split; intros (r & H1 & H2); exists r; split; auto; [apply in_rev; auto|rewrite <- in_rev; auto].
Qed.
Lemma sanitize_ok l b : Forall scalar l -> (coversAny (sanitize l) b <-> coversAny l b).
Proof.
  intros H. unfold sanitize. destruct l as [|x l]; [tauto|].
  rewrite coversAny_rev, sanFold_ok; auto.
  - rewrite !coversAny_cons, coversAny_nil. tauto.
  - constructor; [inversion H; auto|constructor].
Qed.
Lemma lsize_eqb_eq a b : lsize_eqb a b = true -> a = b.
Proof.
  destruct a as [p n| |], b as [q m| |]; simpl; try discriminate; auto.
  rewrite andb_true_iff. intros [H1 H2]. apply Bool.eqb_prop in H1. apply Z.eqb_eq in H2. congruence.
Qed.
Lemma range_eqb_covers a b : range_eqb a b = true -> forall x, covers a x <-> covers b x.
Proof.
  unfold range_eqb. rewrite !andb_true_iff. intros (((((_ & _) & H1) & H2) & H3) & H4) x.
  apply lsize_eqb_eq in H1. apply lsize_eqb_eq in H2. apply dims_eqb_eq in H3.
  apply kind_eqb_collapsed in H4. unfold covers. rewrite H1, H2, H3, H4. tauto.
Qed.
Lemma ranges_eqb_covers a : forall b, ranges_eqb a b = true -> forall x, coversAny a x <-> coversAny b x.
Proof.
  induction a as [|y a IH]; intros [|z b]; simpl; try discriminate; [tauto|].
  rewrite andb_true_iff. intros [H1 H2] x. rewrite !coversAny_cons, (range_eqb_covers _ _ H1), (IH _ H2). tauto.
Qed.
Lemma loc_scalar v p l : Forall (locOk v p) l -> Forall (fun r => rCollapsed r = false) l -> Forall scalar l.
Proof.
  rewrite !Forall_forall. intros H1 H2 r Hr. split; [auto|]. apply (sh_scalar _ _ _ _ (H1 r Hr)); auto.
Qed.
Lemma mset_eqb_ok v a b : setOk v a -> setOk v b ->
  (forall r, In r (allLocs a) \/ In r (allLocs b) -> rCollapsed r = false) ->
  mset_eqb a b = true -> forall q x, setCovers a q x <-> setCovers b q x.
Proof.
  intros Ha Hb Hsc. unfold mset_eqb. rewrite andb_true_iff, Nat.eqb_eq, forallb_forall. intros [Hlen Hf] q x.
  assert (Hone : forall l, In (Some q, l) a -> exists l', mfind (Some q) b = Some l' /\
            forall y, coversAny l y <-> coversAny l' y).
  { intros l Hl. specialize (Hf _ Hl). simpl in Hf. destruct (mfind (Some q) b) as [l'|] eqn:Ef; [|discriminate].
    exists l'. split; [auto|]. intros y. pose proof (mfind_In _ _ _ Ef) as Hl'.
    rewrite <- (sanitize_ok l), <- (sanitize_ok l').
    - apply ranges_eqb_covers; auto.
    - destruct (proj2 Hb _ _ Hl') as (p & E & _ & HF). apply (loc_scalar v p); auto.
      apply Forall_forall. intros r Hr. apply Hsc. right. unfold allLocs. apply in_flat_map. eauto.
    - destruct (proj2 Ha _ _ Hl) as (p & E & _ & HF). apply (loc_scalar v p); auto.
      apply Forall_forall. intros r Hr. apply Hsc. left. unfold allLocs. apply in_flat_map. eauto. }
  assert (Hkeys : incl (map fst b) (map fst a)).
  { apply NoDup_length_incl; [apply Ha|rewrite !map_length; lia|].
    intros k Hk. apply in_map_iff in Hk. destruct Hk as ([k' l] & <- & Hl). specialize (Hf _ Hl). simpl in *.
    destruct (mfind k' b) as [l'|] eqn:Ef; [|discriminate]. apply in_map_iff. exists (k', l').
    split; [auto|apply mfind_In; auto]. }
  rewrite (setCovers_mfind v a), (setCovers_mfind v b) by auto. split.
  - intros (l & H1 & H2). apply mfind_In in H1. destruct (Hone l H1) as (l' & H3 & H4).
    exists l'. split; [auto|apply H4; auto].
  - intros (l' & H1 & H2).
    assert (Hk : In (Some q) (map fst a)).
    { apply Hkeys. apply in_map_iff. exists (Some q, l'). split; [auto|apply mfind_In; auto]. }
    apply in_map_iff in Hk. destruct Hk as ([k l] & E & Hl). simpl in E. subst k.
    destruct (Hone l Hl) as (l2 & H3 & H4). exists l. split; [apply In_mfind; [apply Ha|auto]|].
    apply H4. congruence.
Qed.
Lemma range_eqb_refl r : range_eqb r r = true.
Proof.
  unfold range_eqb, kind_eqb. rewrite ptr_eqb_refl, !Bool.eqb_reflx.
  assert (A : forall s, lsize_eqb s s = true) by (intros []; simpl; rewrite ?Bool.eqb_reflx, ?Z.eqb_refl; auto).
  rewrite !A. assert (B : dims_eqb (rDims r) (rDims r) = true).
  { induction (rDims r) as [|d ds IH]; simpl; auto. rewrite IH. unfold dim_eqb. rewrite !Z.eqb_refl. auto. }
  rewrite B. destruct (rTags r); simpl; rewrite ?Nat.eqb_refl; auto.
Qed.
Lemma mset_eqb_refl v s : setOk v s -> mset_eqb s s = true.
Proof.
  intros [Hd _]. unfold mset_eqb. rewrite Nat.eqb_refl. simpl. apply forallb_forall. intros [k l] Hl. simpl.
  rewrite (In_mfind k s l Hd Hl). induction (sanitize l) as [|r rs IH]; simpl; auto.
  rewrite range_eqb_refl, IH. auto.
Qed.

(** ** When intersections are known *)

(** Byte ranges with known bounds. *)
Definition knownBytes (r : range) : Prop :=
  rCollapsed r = false /\ hasValue (rLo r) = true /\ hasValue (rHi r) = true.
(** Sections without gaps, of one array view. *)
Definition dense (sz : list Z) (r : range) : Prop :=
  rCollapsed r = true /\ map dSize (rDims r) = sz /\ Forall (fun d => dStep d = 1) (rDims r).

Section Dio.
Variable dio : Z -> Z -> Z -> option (Z * Z * Z * Z).
Hypothesis Hdio : dioSpec dio.

Lemma scalar_path a c wl wr Th : rCollapsed a = false -> rCollapsed c = false -> rPtr a = rPtr c ->
  intersectRanges dio a c wl wr Th = intersectScalar a c wl wr.
Proof.
  intros B B' E. unfold intersectRanges. rewrite E, ptr_eqb_refl. simpl. rewrite B, B'. simpl.
  rewrite !andb_false_r. rewrite B. simpl. rewrite !andb_false_r, B'. reflexivity.
Qed.
Lemma knownBytes_decided a c : knownBytes a -> knownBytes c ->
  fst (interR dio a c) <> IMaybe /\ Forall knownBytes (snd (interR dio a c)).
Proof.
  intros (A1 & A2 & A3) (C1 & C2 & C3). unfold interR.
  destruct (ptr_eqb_spec (rPtr a) (rPtr c)) as [E|E].
  2:{ unfold intersectRanges. destruct (ptr_eqb_spec (rPtr a) (rPtr c)); [congruence|]. simpl.
      split; [discriminate|constructor]. }
  rewrite scalar_path by auto. unfold intersectScalar. rewrite E, ptr_eqb_refl, A2, A3, C2, C3. simpl.
  destruct (_ && _); simpl; [|split; [discriminate|constructor]].
  split; [discriminate|]. unfold scalarCompl. apply Forall_app.
  split; [destruct (_ <? _)|destruct (_ >? _)]; try constructor; try constructor; unfold knownBytes; simpl; auto.
Qed.
Lemma knownBytes_inter a c : knownBytes a -> knownBytes c -> inter dio a c <> IMaybe.
Proof.
  intros (A1 & A2 & A3) (C1 & C2 & C3). unfold inter.
  destruct (ptr_eqb_spec (rPtr a) (rPtr c)) as [E|E].
  2:{ unfold intersectRanges. destruct (ptr_eqb_spec (rPtr a) (rPtr c)); [congruence|]. discriminate. }
  rewrite scalar_path by auto. unfold intersectScalar. rewrite E, ptr_eqb_refl, A2, A3, C2, C3. simpl.
  destruct (_ && _); simpl; discriminate.
Qed.

Lemma dio_unit c A B C D : dio 1 1 c = Some (A, B, C, D) -> B = 1.
Proof.
  intros H. pose proof (Hdio 1 1 c ltac:(lia) ltac:(lia)) as S. rewrite H in S.
  destruct S as (HB & _ & HS).
  destruct (proj1 (HS c 0) ltac:(lia)) as (t1 & E1 & _).
  destruct (proj1 (HS (c + 1) 1) ltac:(lia)) as (t2 & E2 & _).
  assert (B * (t2 - t1) = 1) by lia. assert (0 < t2 - t1) by nia. nia.
Qed.
Lemma dense_dim L R X : dStep L = 1 -> dStep R = 1 -> dimIntersect dio L R = Some X ->
  dStep X = 1 /\ dSize X = dSize L.
Proof.
  intros HL HR. unfold dimIntersect. destruct (_ || _); [discriminate|]. rewrite HL, HR.
  destruct (dio 1 1 _) as [[[[A B] C] D]|] eqn:E; [|discriminate]. apply dio_unit in E. subst B.
  destruct (_ <? _); [discriminate|]. intros [= <-]. auto.
Qed.
Lemma dense_difference D X : dStep D = 1 -> dStep X = 1 ->
  exists cs, difference D X Threshold = Some cs /\ Forall (fun c => dStep c = 1 /\ dSize c = dSize D) cs.
Proof.
  intros HD HX. unfold difference. rewrite HD, HX. change (1 / 1 - 1) with 0.
  change (0 >? Threshold) with false. cbv iota.
  destruct (dTrip X >? 1); eexists; (split; [reflexivity|]); rewrite ?Forall_app; repeat split;
    try (destruct (_ <? _)); try (destruct (_ >? _)); try constructor; try constructor; auto.
Qed.
Lemma map_setNth {A B} (f : A -> B) i x l d : nth_error l i = Some d -> f x = f d ->
  map f (setNth i x l) = map f l.
Proof.
  revert i. induction l as [|y l IH]; intros [|i]; simpl; try discriminate; intros H E.
  - injection H as <-. congruence.
  - f_equal; auto.
Qed.
Lemma Forall_setNth {A} (P : A -> Prop) i x l : Forall P l -> P x -> Forall P (setNth i x l).
Proof. intros H Hx. revert i. induction H; intros [|i]; simpl; constructor; auto. Qed.
Lemma dense_loop L R sz : dense sz L -> dense sz R ->
  forall ls rs lp rp acc LC RC,
  rDims L = lp ++ ls -> rDims R = rp ++ rs -> length lp = length rp ->
  Forall (dense sz) RC ->
  let '(res, _, RC') := interLoop dio L R false true Threshold (length lp) ls rs acc LC RC in
  res <> IMaybe /\ Forall (dense sz) RC'.
Proof.
  intros (L1 & L2 & L3) (R1 & R2 & R3).
  induction ls as [|a ls IH]; intros rs lp rp acc LC RC EL ER Hlen HRC.
  - simpl. split; [discriminate|auto].
  - destruct rs as [|b rs]; [simpl; split; [discriminate|auto]|]. cbn [interLoop].
    assert (Hab : dSize a = dSize b).
    { rewrite EL in L2. rewrite ER in R2. rewrite map_app in L2, R2. simpl in L2, R2.
      assert (H : map dSize lp ++ dSize a :: map dSize ls = map dSize rp ++ dSize b :: map dSize rs) by congruence.
      assert (Hl : length (map dSize lp) = length (map dSize rp)) by (rewrite !map_length; auto).
      clear - H Hl. revert H Hl. generalize (map dSize lp), (map dSize rp), (map dSize ls), (map dSize rs).
      induction l as [|x l IH]; intros [|y l0] l1 l2 H Hl; simpl in *; try discriminate; [congruence|].
      injection H as _ H. eapply IH; eauto. }
    rewrite Hab, Z.eqb_refl. cbn [negb].
    assert (Sa : dStep a = 1) by (rewrite EL in L3; apply Forall_app in L3; destruct L3 as [_ L3]; inversion L3; auto).
    assert (Sb : dStep b = 1) by (rewrite ER in R3; apply Forall_app in R3; destruct R3 as [_ R3]; inversion R3; auto).
    destruct (dimIntersect dio a b) as [X|] eqn:EX; [|split; [discriminate|auto]].
    destruct (dense_dim _ _ _ Sa Sb EX) as [SX _].
    destruct (dense_difference b X Sb SX) as (cs & Ecs & Hcs). rewrite Ecs.
    specialize (IH rs (lp ++ [a]) (rp ++ [b]) (X :: acc) (LC ++ complOf L (length lp) [])
       (RC ++ complOf R (length lp) cs)).
    rewrite app_length in IH. simpl in IH. rewrite Nat.add_1_r in IH. apply IH.
    + rewrite <- app_assoc. exact EL.
    + rewrite <- app_assoc. exact ER.
    + rewrite !app_length. simpl. lia.
    + apply Forall_app. split; [auto|]. unfold complOf. apply Forall_forall. intros r Hr.
      apply in_map_iff in Hr. destruct Hr as (c & <- & Hc). rewrite Forall_forall in Hcs.
      destruct (Hcs c Hc) as [C1 C2]. split; [auto|]. simpl. split.
      * rewrite (map_setNth dSize _ c (rDims R) b); auto.
        rewrite ER, nth_error_app2 by lia. rewrite Hlen, Nat.sub_diag. reflexivity.
      * apply Forall_setNth; auto.
Qed.
Lemma dense_decided sz a c : dense sz a -> dense sz c ->
  fst (interR dio a c) <> IMaybe /\ Forall (dense sz) (snd (interR dio a c)).
Proof.
  intros Ha Hc. pose proof Ha as (A1 & A2 & A3). pose proof Hc as (C1 & C2 & C3).
  unfold interR, intersectRanges.
  destruct (ptr_eqb _ _); simpl; [|split; [discriminate|constructor]].
  rewrite A1, C1. simpl. rewrite A1, C1. simpl.
  assert (Hlen : length (rDims a) = length (rDims c)) by (rewrite <- (map_length dSize (rDims a)), A2, <- C2, map_length; reflexivity).
  rewrite Hlen, Nat.eqb_refl. simpl.
  destruct (_ && _ && _); [split; [discriminate|constructor]|].
  pose proof (dense_loop a c sz Ha Hc (rDims a) (rDims c) [] [] [] [] [] eq_refl eq_refl eq_refl (Forall_nil _)) as H.
  simpl in H. destruct (interLoop _ _ _ _ _ _ _ _ _ _ _ _) as [[res LC] RC]. exact H.
Qed.
End Dio.
