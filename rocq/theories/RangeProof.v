(** Proofs about intersection of ranges. *)
From Coq Require Import ZArith Bool List Lia.
From Verif Require Import RangeModel RangeSpec.
Import ListNotations.
Open Scope Z_scope.

Lemma ceilDiv_le a b t : 0 < b -> (ceilDiv a b <= t <-> a <= b * t).
Proof.
  intros Hb. unfold ceilDiv. split; intros H.
  - pose proof (Z.mul_div_le (- a) b Hb). nia.
  - assert (- t <= (- a) / b) by (apply Z.div_le_lower_bound; nia). lia.
Qed.
Lemma floorDiv_ge a b t : 0 < b -> (t <= a / b <-> b * t <= a).
Proof.
  intros Hb. split; intros H.
  - pose proof (Z.mul_div_le a b Hb). nia.
  - apply Z.div_le_lower_bound; auto.
Qed.

(** [X] is a part of [D] with a multiple of its step. *)
Definition subdim (D X : dim) : Prop :=
  exists a b, 0 <= a /\ 1 <= b /\ dStart X = dStart D + dStep D * a /\
    dStep X = dStep D * b /\ dEnd X <= dEnd D.

Section Dim.
Variable dio : Z -> Z -> Z -> option (Z * Z * Z * Z).
Hypothesis Hdio : dioSpec dio.

Lemma dimIntersect_ok L R : dimOk L -> dimOk R ->
  match dimIntersect dio L R with
  | None => forall i, inDim L i -> inDim R i -> False
  | Some X => (forall i, inDim X i <-> inDim L i /\ inDim R i) /\
      dSize X = dSize L /\ subdim L X /\ subdim R X /\ dimOk X
  end.
Proof.
  intros (L0 & L1 & L2) (R0 & R1 & R2). unfold dimIntersect.
  destruct ((dEnd L <? dStart R) || (dEnd R <? dStart L)) eqn:Eapart.
  { intros i (k & Hk & Ei) (k' & Hk' & Ei'). unfold dEnd in Eapart.
    assert (0 <= dStep L * k <= dStep L * (dTrip L - 1)) by nia.
    assert (0 <= dStep R * k' <= dStep R * (dTrip R - 1)) by nia. lia. }
  pose proof (Hdio (dStep L) (dStep R) (dStart R - dStart L) L1 R1) as Hd.
  destruct (dio (dStep L) (dStep R) (dStart R - dStart L)) as [[[[A B] C] D]|].
  2:{ intros i (k & Hk & Ei) (k' & Hk' & Ei'). apply (Hd k k'). lia. }
  destruct Hd as (HB & HD & Hsol).
  assert (HKB : dStep L * B = dStep R * D).
  { assert (E0 : dStep L * A - dStep R * C = dStart R - dStart L)
      by (apply Hsol; exists 0; lia).
    assert (E1 : dStep L * (A + B) - dStep R * (C + D) = dStart R - dStart L)
      by (apply Hsol; exists 1; lia). lia. }
  assert (E0 : dStep L * A - dStep R * C = dStart R - dStart L)
      by (apply Hsol; exists 0; lia).
  set (Tmin := Z.max _ _). set (Tmax := Z.min _ _).
  assert (Hin : forall t, Tmin <= t <= Tmax <->
     0 <= A + B * t < dTrip L /\ 0 <= C + D * t < dTrip R).
  { intros t. unfold Tmin, Tmax. rewrite Z.max_lub_iff, Z.min_glb_iff.
    rewrite !ceilDiv_le, !floorDiv_ge by auto. lia. }
  assert (Hboth : forall i, inDim L i /\ inDim R i <->
     exists t, Tmin <= t <= Tmax /\ i = dStart L + dStep L * (A + B * t)).
  { intros i. split.
    - intros ((k & Hk & Ei) & (k' & Hk' & Ei')).
      assert (Hs : dStep L * k - dStep R * k' = dStart R - dStart L) by lia.
      apply Hsol in Hs. destruct Hs as (t & -> & ->). exists t. rewrite Hin. auto.
    - intros (t & Ht & ->). apply Hin in Ht. destruct Ht as [Ht1 Ht2].
      split; [exists (A + B * t); auto|]. exists (C + D * t). split; auto.
      assert (Hs : dStep L * (A + B * t) - dStep R * (C + D * t) = dStart R - dStart L)
        by (apply Hsol; eauto). lia. }
  destruct (Tmax <? Tmin) eqn:Et.
  { intros i Hi Hi'. destruct (proj1 (Hboth i) (conj Hi Hi')) as (t & Ht & _). lia. }
  assert (Hmin : Tmin <= Tmin <= Tmax) by lia.
  assert (Hmax : Tmin <= Tmax <= Tmax) by lia.
  apply Hin in Hmin. apply Hin in Hmax. destruct Hmin as [Hmn1 Hmn2], Hmax as [Hmx1 Hmx2].
  set (X := mkDim _ _ _ _).
  assert (HeX : dEnd X = dStart L + dStep L * (A + B * Tmax)).
  { unfold dEnd, X; simpl. ring. }
  assert (HeX' : dEnd X = dStart R + dStep R * (C + D * Tmax)).
  { rewrite HeX. replace (dStep L * (A + B * Tmax)) with (dStep L * A + dStep L * B * Tmax) by ring.
    rewrite HKB. lia. }
  assert (HsX : dStart X = dStart L + dStep L * (A + B * Tmin)) by (unfold X; simpl; ring).
  assert (HsX' : dStart X = dStart R + dStep R * (C + D * Tmin)).
  { rewrite HsX. replace (dStep L * (A + B * Tmin)) with (dStep L * A + dStep L * B * Tmin) by ring.
    rewrite HKB. lia. }
  assert (HstX : dStep X = dStep L * B) by reflexivity.
  assert (HtX : dTrip X = Tmax - Tmin + 1) by reflexivity.
  assert (HzX : dSize X = dSize L) by reflexivity.
  clearbody X Tmin Tmax.
  split; [|split; [exact HzX|split; [|split]]].
  - intros i. rewrite Hboth. unfold inDim. rewrite HstX, HtX, HsX. split.
    + intros (k & Hk & ->). exists (Tmin + k). split; [lia|ring].
    + intros (t & Ht & ->). exists (t - Tmin). split; [lia|ring].
  - exists (A + B * Tmin), B. repeat split; try lia.
    rewrite HeX. unfold dEnd.
    apply Zplus_le_compat_l. apply Z.mul_le_mono_nonneg_l; lia.
  - exists (C + D * Tmin), D. repeat split; try lia.
    rewrite HeX'. unfold dEnd.
    apply Zplus_le_compat_l. apply Z.mul_le_mono_nonneg_l; lia.
  - unfold dimOk. rewrite HsX. rewrite HstX, HtX. split; [|split; [nia|lia]].
    assert (0 <= dStep L * (A + B * Tmin)) by (apply Z.mul_nonneg_nonneg; lia). lia.
Qed.
End Dim.

Lemma inDim_divmod d i : dimOk d ->
  inDim d i <-> dStart d <= i <= dEnd d /\ (i - dStart d) mod dStep d = 0.
Proof.
  intros (H0 & H1 & H2). unfold inDim, dEnd. split.
  - intros (k & Hk & ->). split.
    + assert (0 <= dStep d * k <= dStep d * (dTrip d - 1)) by nia. lia.
    + replace (dStart d + dStep d * k - dStart d) with (k * dStep d) by ring.
      apply Z.mod_mul. lia.
  - intros (Hr & Hm). apply Z.mod_divide in Hm; [|lia]. destruct Hm as [k Hk].
    exists k. split; [|lia].
    assert (k * dStep d <= dStep d * (dTrip d - 1)) by lia. nia.
Qed.

Lemma difference_ok D X Th cs : dimOk D -> dimOk X -> subdim D X ->
  difference D X Th = Some cs ->
  (forall i, Exists (fun c => inDim c i) cs <-> inDim D i /\ ~ inDim X i) /\
  Forall (fun c => dimOk c /\ dSize c = dSize D /\ dEnd c <= dEnd D) cs.
Proof.
  intros (D0 & D1 & D2) (X0 & X1 & X2) (a & b & Ha & Hb & Es & Est & Een).
  unfold difference.
  assert (HeX : dEnd X = dStart D + dStep D * (a + b * (dTrip X - 1))).
  { unfold dEnd. rewrite Es, Est. ring. }
  set (e := a + b * (dTrip X - 1)) in *.
  assert (He : e <= dTrip D - 1).
  { rewrite HeX in Een. unfold dEnd in Een. nia. }
  assert (Hae : a <= e) by (unfold e; nia).
  (* positions inside of D *)
  assert (HX : forall k, inDim X (dStart D + dStep D * k) <->
            exists j, 0 <= j < dTrip X /\ k = a + b * j).
  { intros k. unfold inDim. rewrite Es, Est. split; intros (j & Hj & E).
    - exists j. split; [auto|].
      assert (dStep D * k = dStep D * (a + b * j)) by lia.
      apply Z.mul_reg_l in H; lia.
    - exists j. split; [auto|]. rewrite E. ring. }
  set (left := if dStart D <? dStart X then _ else _).
  set (right := if dEnd D >? dEnd X then _ else _).
  assert (Hleft : (forall i, Exists (fun c => inDim c i) left <->
              exists k, 0 <= k < a /\ i = dStart D + dStep D * k) /\
            Forall (fun c => dimOk c /\ dSize c = dSize D /\ dEnd c <= dEnd D) left).
  { unfold left. destruct (dStart D <? dStart X) eqn:E.
    - assert (Hq : (dStart X - dStart D) / dStep D = a).
      { rewrite Es. replace (dStart D + dStep D * a - dStart D) with (a * dStep D) by ring.
        apply Z.div_mul; lia. }
      assert (0 < a) by nia.
      split.
      + intros i. rewrite Exists_cons, Exists_nil. unfold inDim; simpl. rewrite Hq.
        split; [intros [Hx|[]]; exact Hx|auto].
      + constructor; [|constructor]. unfold dimOk, dEnd; simpl. rewrite Hq.
        repeat split; try lia. apply Zplus_le_compat_l, Z.mul_le_mono_nonneg_l; lia.
    - assert (a = 0) by nia. split; [|constructor]. intros i. rewrite Exists_nil.
      split; [tauto|intros (k & Hk & _); lia]. }
  assert (Hright : (forall i, Exists (fun c => inDim c i) right <->
              exists k, e < k < dTrip D /\ i = dStart D + dStep D * k) /\
            Forall (fun c => dimOk c /\ dSize c = dSize D /\ dEnd c <= dEnd D) right).
  { unfold right. destruct (dEnd D >? dEnd X) eqn:E.
    - assert (Hq : (dEnd D - dEnd X) / dStep D = dTrip D - 1 - e).
      { rewrite HeX. unfold dEnd.
        replace (_ - _) with ((dTrip D - 1 - e) * dStep D) by ring. apply Z.div_mul; lia. }
      assert (e < dTrip D - 1).
      { rewrite HeX in E. unfold dEnd in E. nia. }
      split.
      + intros i. rewrite Exists_cons, Exists_nil. unfold inDim; cbn [dStart dStep dTrip dSize]. rewrite Hq, HeX.
        split.
        * intros [(k & Hk & ->)|[]]. exists (e + 1 + k). split; [lia|ring].
        * intros (k & Hk & ->). left. exists (k - e - 1). split; [lia|ring].
      + constructor; [|constructor]. unfold dimOk. cbn [dStart dStep dTrip dSize]. rewrite Hq.
        split; [|split; [auto|]].
        * split; [|lia]. rewrite HeX. assert (0 <= dStep D * e) by nia. lia.
        * unfold dEnd at 1; cbn [dStart dStep dTrip dSize]. rewrite HeX. unfold dEnd. nia.
    - assert (e = dTrip D - 1).
      { rewrite HeX in E. unfold dEnd in E. nia. }
      split; [|constructor]. intros i. rewrite Exists_nil.
      split; [tauto|intros (k & Hk & _); lia]. }
  destruct Hleft as [Hl1 Hl2], Hright as [Hr1 Hr2].
  destruct (dTrip X >? 1) eqn:Etr.
  - assert (Hqb : dStep X / dStep D = b).
    { rewrite Est, Z.mul_comm. apply Z.div_mul; lia. }
    rewrite Hqb. destruct (b - 1 >? Th); [discriminate|].
    intros Ec. injection Ec as <-.
    assert (Hc : (forall i, Exists (fun c => inDim c i) (centers D X (Z.to_nat (b - 1))) <->
               exists j r, 0 <= j < dTrip X - 1 /\ 0 < r < b /\
                 i = dStart D + dStep D * (a + b * j + r)) /\
       Forall (fun c => dimOk c /\ dSize c = dSize D /\ dEnd c <= dEnd D)
          (centers D X (Z.to_nat (b - 1)))).
    { unfold centers. split.
      - intros i. rewrite Exists_exists. split.
        + intros (c & Hc & Hi). apply in_map_iff in Hc. destruct Hc as (J & <- & HJ).
          apply in_seq in HJ. unfold inDim in Hi; simpl in Hi.
          destruct Hi as (j & Hj & ->). exists j, (Z.of_nat J + 1).
          split; [lia|split; [lia|]]. rewrite Es, Est. ring.
        + intros (j & r & Hj & Hr & ->).
          exists (mkDim (dStart X + dStep D * (Z.of_nat (Z.to_nat (r - 1)) + 1)) (dStep X)
                   (dTrip X - 1) (dSize D)).
          split.
          * apply in_map_iff. exists (Z.to_nat (r - 1)). split; auto. apply in_seq. lia.
          * exists j. split; [simpl; lia|]. cbn [dStart dStep].
            rewrite Z2Nat.id by lia. rewrite Es, Est. ring.
      - apply Forall_forall. intros c Hc. apply in_map_iff in Hc.
        destruct Hc as (J & <- & HJ). apply in_seq in HJ. unfold dimOk; cbn [dStart dStep dTrip dSize].
        assert (0 <= dStep D * (Z.of_nat J + 1) <= dStep D * (b - 1)) by nia.
        split; [lia|split; [reflexivity|]].
        transitivity (dEnd X); [|exact Een].
        unfold dEnd at 1; cbn [dStart dStep dTrip]. unfold dEnd. rewrite Est. nia. }
    destruct Hc as [Hc1 Hc2]. split.
    + intros i. rewrite !Exists_app, Hl1, Hr1, Hc1. split.
      * intros [(k & Hk & ->)|[(k & Hk & ->)|(j & r & Hj & Hr & ->)]].
        -- split; [exists k; split; [lia|auto]|]. rewrite HX. intros (j & Hj & E). nia.
        -- split; [exists k; split; [lia|auto]|]. rewrite HX. intros (j & Hj & E). unfold e in Hk. nia.
        -- split.
           ++ exists (a + b * j + r). split; [|auto].
              assert (0 <= b * j) by nia.
              assert (b * j + b <= b * (dTrip X - 1)) by nia. unfold e in He. lia.
           ++ rewrite HX. intros (j' & Hj' & E).
              assert (b * (j' - j) = r) by lia.
              assert (j' - j <= 0 \/ 1 <= j' - j) by lia. nia.
      * intros ((k & Hk & ->) & Hn). rewrite HX in Hn.
        destruct (Z_lt_le_dec k a); [left; exists k; split; [lia|auto]|].
        destruct (Z_lt_le_dec e k); [right; left; exists k; split; [lia|auto]|].
        right; right.
        pose proof (Z.div_mod (k - a) b ltac:(lia)) as Edm.
        pose proof (Z.mod_pos_bound (k - a) b ltac:(lia)) as Hm.
        assert (Hdj : 0 <= (k - a) / b) by (apply Z.div_pos; lia).
        set (j := (k - a) / b) in *. set (r := (k - a) mod b) in *.
        assert (Hr0 : r <> 0).
        { intros Hr0. apply Hn. exists j. split; [|lia]. unfold e in *. nia. }
        exists j, r. split; [unfold e in *; nia|]. split; [lia|]. f_equal. f_equal. lia.
    + repeat (apply Forall_app; split); auto.
  - assert (HtX : dTrip X = 1) by lia.
    intros Ec. injection Ec as <-. split.
    + intros i. rewrite Exists_app, Hl1, Hr1.
      assert (Hea : e = a) by (unfold e; rewrite HtX; lia). split.
      * intros [(k & Hk & ->)|(k & Hk & ->)];
          (split; [exists k; split; [lia|auto]|]; rewrite HX; intros (j & Hj & E);
           assert (j = 0) by lia; subst j; lia).
      * intros ((k & Hk & ->) & Hn). rewrite HX in Hn.
        destruct (Z_lt_le_dec k a); [left; exists k; split; [lia|auto]|].
        right. exists k. split; [|auto]. split; [|lia].
        destruct (Z.eq_dec k a); [|lia]. exfalso. apply Hn. exists 0. lia.
    + apply Forall_app; auto.
Qed.

(** ** Several dimensions. *)
Lemma inDim_dec d i : dimOk d -> inDim d i \/ ~ inDim d i.
Proof.
  intros H. rewrite (inDim_divmod d i H).
  destruct (Z.le_decidable (dStart d) i), (Z.le_decidable i (dEnd d)),
    (Z.eq_decidable ((i - dStart d) mod dStep d) 0); intuition.
Qed.
Lemma inDims_dec ds : Forall dimOk ds -> forall idx, inDims ds idx \/ ~ inDims ds idx.
Proof.
  unfold inDims. induction 1 as [|d ds Hd Hds IH]; intros [|i idx].
  - left; constructor.
  - right; inversion 1.
  - right; inversion 1.
  - destruct (inDim_dec d i Hd); [|right; inversion 1; auto].
    destruct (IH idx); [left; constructor; auto|right; inversion 1; auto].
Qed.
Lemma Forall2_length {A B} (P : A -> B -> Prop) a b : Forall2 P a b -> length a = length b.
Proof. induction 1; simpl; auto. Qed.
Lemma inDims_app d1 d2 idx :
  inDims (d1 ++ d2) idx <-> inDims d1 (firstn (length d1) idx) /\ inDims d2 (skipn (length d1) idx).
Proof.
  unfold inDims. split.
  - intros H. apply Forall2_app_inv_l in H. destruct H as (l1 & l2 & H1 & H2 & ->).
    rewrite (Forall2_length _ _ _ H1). rewrite firstn_app, firstn_all, Nat.sub_diag, skipn_app, skipn_all, Nat.sub_diag.
    simpl. rewrite app_nil_r. auto.
  - intros [H1 H2]. rewrite <- (firstn_skipn (length d1) idx). apply Forall2_app; auto.
Qed.
Lemma setNth_app {A} (l1 : list A) x y l2 :
  setNth (length l1) y (l1 ++ x :: l2) = l1 ++ y :: l2.
Proof. induction l1; simpl; congruence. Qed.

(** A piece of [X]: the same location with another list of dimensions, of the
    same sizes, not longer. *)
Definition pieceOk (X c : range) : Prop :=
  exists ds, c = setDims X ds /\ Forall dimOk ds /\ map dSize ds = map dSize (rDims X) /\
    Forall2 (fun x y => dEnd x <= dEnd y) ds (rDims X).
Definition idxAny (rs : list range) (idx : list Z) : Prop :=
  exists r, In r rs /\ inDims (rDims r) idx.
Lemma idxAny_app a b idx : idxAny (a ++ b) idx <-> idxAny a idx \/ idxAny b idx.
Proof.
  unfold idxAny. split.
  - intros (r & Hr & Hi). apply in_app_or in Hr. destruct Hr; [left|right]; eauto.
  - intros [(r & Hr & Hi)|(r & Hr & Hi)]; exists r; split; auto; apply in_or_app; auto.
Qed.
Lemma rDims_setDims X ds : rDims (setDims X ds) = ds.
Proof. reflexivity. Qed.

(** One step of the complement of a side. *)
Definition complInv (S : range) (sp Xs : list dim) (C : list range) : Prop :=
  (forall idx, idxAny C idx <->
     inDims (rDims S) idx /\ ~ inDims Xs (firstn (length sp) idx)) /\
  Forall (pieceOk S) C.

Lemma Forall2_refl_le ds : Forall2 (fun x y : dim => dEnd x <= dEnd y) ds ds.
Proof. induction ds; constructor; auto. lia. Qed.

Lemma compl_step S sp s ss Xs x Th cs C :
  rDims S = sp ++ s :: ss -> length Xs = length sp ->
  Forall dimOk (rDims S) -> Forall dimOk Xs -> dimOk x -> subdim s x ->
  (forall i1, inDims Xs i1 -> inDims sp i1) ->
  difference s x Th = Some cs ->
  complInv S sp Xs C ->
  complInv S (sp ++ [s]) (Xs ++ [x]) (C ++ complOf S (length sp) cs).
Proof.
  intros ES Hlen HokS HokX Hx Hsub Hinc Hdiff [Hcov Hpc].
  assert (Hs : dimOk s) by (rewrite ES in HokS; apply Forall_app in HokS; destruct HokS as [_ HH]; inversion HH; auto).
  destruct (difference_ok _ _ _ _ Hs Hx Hsub Hdiff) as [Hd1 Hd2].
  split.
  - intros idx. rewrite idxAny_app, Hcov.
    assert (Hnew : idxAny (complOf S (length sp) cs) idx <->
       inDims sp (firstn (length sp) idx) /\
       (exists j rest, skipn (length sp) idx = j :: rest /\ inDim s j /\ ~ inDim x j /\ inDims ss rest)).
    { unfold idxAny, complOf. split.
      - intros (r & Hr & Hi). apply in_map_iff in Hr. destruct Hr as (c & <- & Hc).
        rewrite rDims_setDims, ES, setNth_app, inDims_app in Hi. destruct Hi as [Hi1 Hi2].
        split; auto. unfold inDims in Hi2.
        destruct (skipn (length sp) idx) as [|j rest]; inversion Hi2; subst.
        exists j, rest. split; auto.
        assert (HE : Exists (fun c => inDim c j) cs) by (apply Exists_exists; eauto).
        apply Hd1 in HE. tauto.
      - intros (Hi1 & j & rest & Ej & Hj1 & Hj2 & Hrest).
        assert (HE : Exists (fun c => inDim c j) cs) by (apply Hd1; auto).
        apply Exists_exists in HE. destruct HE as (c & Hc & Hjc).
        exists (setDims S (setNth (length sp) c (rDims S))). split.
        + apply in_map_iff. eauto.
        + rewrite rDims_setDims, ES, setNth_app, inDims_app, Ej. split; auto.
          constructor; auto. }
    rewrite Hnew, ES, !inDims_app.
    assert (Hfn : firstn (length (sp ++ [s])) idx =
        firstn (length sp) idx ++ match skipn (length sp) idx with [] => [] | j :: _ => [j] end).
    { rewrite app_length. simpl. clear. revert idx.
      induction (length sp); intros [|i idx]; simpl; auto.
      f_equal. apply IHn. }
    rewrite Hfn, Hlen.
    assert (Hff : firstn (length sp) (firstn (length sp) idx ++ match skipn (length sp) idx with [] => [] | j :: _ => [j] end)
              = firstn (length sp) idx).
    { clear. revert idx. induction (length sp); intros [|i idx]; simpl; auto. f_equal. apply IHn. }
    rewrite Hff.
    assert (Hsk : inDims sp (firstn (length sp) idx) ->
       skipn (length sp) (firstn (length sp) idx ++ match skipn (length sp) idx with [] => [] | j :: _ => [j] end)
       = match skipn (length sp) idx with [] => [] | j :: _ => [j] end).
    { intros Hi. apply Forall2_length in Hi. rewrite skipn_app.
      rewrite skipn_all2 by lia. rewrite Hi at 1.
      rewrite <- Hi. rewrite Nat.sub_diag. reflexivity. }
    split.
    + intros [((Hi1 & Hi2) & Hn)|(Hi1 & j & rest & Ej & Hj1 & Hj2 & Hrest)].
      * split; [auto|]. tauto.
      * rewrite Ej in *. split; [split; [auto|constructor; auto]|].
        intros [_ Hc]. rewrite Hsk in Hc by auto. inversion Hc; auto.
    + intros ((Hi1 & Hi2) & Hn). rewrite Hsk in Hn by auto.
      destruct (inDims_dec Xs HokX (firstn (length sp) idx)) as [Hin|Hout]; [|left; auto].
      right. split; auto.
      destruct (skipn (length sp) idx) as [|j rest]; [inversion Hi2|].
      inversion Hi2; subst. exists j, rest. repeat split; auto.
      intros Hjx. apply Hn. split; auto. constructor; auto.
  - apply Forall_app. split; auto. unfold complOf. apply Forall_forall. intros r Hr.
    apply in_map_iff in Hr. destruct Hr as (c & <- & Hc).
    rewrite Forall_forall in Hd2. destruct (Hd2 c Hc) as (Hc1 & Hc2 & Hc3).
    rewrite ES, setNth_app. exists (sp ++ c :: ss).
    rewrite ES in HokS. apply Forall_app in HokS. destruct HokS as [Hk1 Hk2].
    inversion Hk2; subst. split; [reflexivity|split; [|split]].
    + apply Forall_app; auto.
    + rewrite ES, !map_app. simpl. congruence.
    + rewrite ES. apply Forall2_app; [apply Forall2_refl_le|].
      constructor; [exact Hc3|apply Forall2_refl_le].
Qed.

Definition prefixInv (lp rp Xs : list dim) : Prop :=
  length Xs = length lp /\ Forall dimOk Xs /\ map dSize Xs = map dSize lp /\
  Forall2 (fun x y => dEnd x <= dEnd y) Xs lp /\
  (forall i1, inDims Xs i1 <-> inDims lp i1 /\ inDims rp i1).

Lemma inDims_snoc ds d i1 :
  inDims (ds ++ [d]) i1 <-> exists i0 j, i1 = i0 ++ [j] /\ inDims ds i0 /\ inDim d j.
Proof.
  unfold inDims. split.
  - intros H. apply Forall2_app_inv_l in H. destruct H as (l1 & l2 & H1 & H2 & ->).
    inversion H2; subst. inversion H5; subst. eauto.
  - intros (i0 & j & -> & H1 & H2). apply Forall2_app; auto.
Qed.

Lemma prefix_step lp rp Xs L R X :
  prefixInv lp rp Xs -> dimOk X -> dSize X = dSize L -> dEnd X <= dEnd L ->
  (forall i, inDim X i <-> inDim L i /\ inDim R i) ->
  prefixInv (lp ++ [L]) (rp ++ [R]) (Xs ++ [X]).
Proof.
  intros (H1 & H2 & H3 & H4 & H5) HX Hs He Hi.
  split; [|split; [|split; [|split]]].
  - rewrite !app_length; simpl; lia.
  - apply Forall_app; auto.
  - rewrite !map_app; simpl; congruence.
  - apply Forall2_app; auto.
  - intros i1. rewrite !inDims_snoc. split.
    + intros (i0 & j & -> & Ha & Hb). apply H5 in Ha. apply Hi in Hb.
      split; exists i0, j; tauto.
    + intros ((i0 & j & -> & Ha & Hb) & (i0' & j' & E & Ha' & Hb')).
      apply app_inj_tail in E. destruct E as [<- <-].
      exists i0, j. split; auto. split; [apply H5; auto|apply Hi; auto].
Qed.

Lemma compl_subset L R lp ls rp rs Xs C :
  rDims L = lp ++ ls -> rDims R = rp ++ rs -> length lp = length rp ->
  (forall i1, inDims lp i1 -> inDims rp i1 -> inDims Xs i1) ->
  complInv L lp Xs C ->
  forall idx, idxAny C idx -> inDims (rDims L) idx /\ ~ inDims (rDims R) idx.
Proof.
  intros EL ER Hlen HX [Hc _] idx Hi. apply Hc in Hi. destruct Hi as [H1 H2].
  split; auto. rewrite ER. intros H3. apply H2. rewrite EL in H1.
  apply inDims_app in H1. apply inDims_app in H3. rewrite <- Hlen in H3. apply HX; tauto.
Qed.

Section Loop.
Variable dio : Z -> Z -> Z -> option (Z * Z * Z * Z).
Hypothesis Hdio : dioSpec dio.
Variables (LHS RHS : range) (wl wr : bool) (Th : Z).
Hypothesis HokL : Forall dimOk (rDims LHS).
Hypothesis HokR : Forall dimOk (rDims RHS).

Definition loopPost (x : ires * list range * list range) : Prop :=
  let '(res, LC, RC) := x in
  Forall (pieceOk LHS) LC /\ Forall (pieceOk RHS) RC /\
  (forall idx, idxAny LC idx -> inDims (rDims LHS) idx /\ ~ inDims (rDims RHS) idx) /\
  (forall idx, idxAny RC idx -> inDims (rDims RHS) idx /\ ~ inDims (rDims LHS) idx) /\
  match res with
  | INone => forall idx, inDims (rDims LHS) idx -> inDims (rDims RHS) idx -> False
  | IMaybe => True
  | IExact r => pieceOk LHS r /\
      (forall idx, inDims (rDims r) idx <-> inDims (rDims LHS) idx /\ inDims (rDims RHS) idx) /\
      (wl = true -> forall idx, idxAny LC idx <-> inDims (rDims LHS) idx /\ ~ inDims (rDims RHS) idx) /\
      (wr = true -> forall idx, idxAny RC idx <-> inDims (rDims RHS) idx /\ ~ inDims (rDims LHS) idx)
  end.

Definition sideInv (w : bool) (S : range) (sp Xs : list dim) (C : list range) : Prop :=
  if w then complInv S sp Xs C else C = [].

Lemma side_pieces w S sp Xs C : sideInv w S sp Xs C -> Forall (pieceOk S) C.
Proof. destruct w; simpl; [intros [_ H]; auto|intros ->; constructor]. Qed.
Lemma side_subset w L R lp ls rp rs Xs C :
  rDims L = lp ++ ls -> rDims R = rp ++ rs -> length lp = length rp ->
  (forall i1, inDims lp i1 -> inDims rp i1 -> inDims Xs i1) ->
  sideInv w L lp Xs C ->
  forall idx, idxAny C idx -> inDims (rDims L) idx /\ ~ inDims (rDims R) idx.
Proof.
  destruct w; simpl; intros; [eapply compl_subset; eauto|].
  subst. destruct H4 as (r & [] & _).
Qed.

Lemma interLoop_ok : forall ls rs lp rp Xs LC RC,
  rDims LHS = lp ++ ls -> rDims RHS = rp ++ rs ->
  length lp = length rp -> length ls = length rs ->
  prefixInv lp rp Xs -> sideInv wl LHS lp Xs LC -> sideInv wr RHS rp Xs RC ->
  loopPost (interLoop dio LHS RHS wl wr Th (length lp) ls rs (rev Xs) LC RC).
Proof.
  induction ls as [|L ls IH]; intros rs lp rp Xs LC RC EL ER Hlp Hls Hpre HL HR.
  - destruct rs; [|discriminate]. simpl. rewrite app_nil_r in EL, ER.
    pose proof Hpre as (P1 & P2 & P3 & P4 & P5).
    rewrite rev_involutive.
    split; [eapply side_pieces; eauto|]. split; [eapply side_pieces; eauto|].
    split; [eapply side_subset; [rewrite EL, app_nil_r; reflexivity|rewrite ER, app_nil_r; reflexivity| | |eauto]; auto; intros; apply P5; auto|].
    split; [eapply side_subset; [rewrite ER, app_nil_r; reflexivity|rewrite EL, app_nil_r; reflexivity| | |eauto]; auto; intros; apply P5; auto|].
    split.
    { exists Xs. rewrite EL. auto. }
    split; [intros idx; rewrite EL, ER; apply P5|].
    assert (Hall : forall A (l : list A) idx (P : A -> Z -> Prop), Forall2 P l idx -> firstn (length l) idx = idx).
    { intros A l idx P HF. rewrite (Forall2_length _ _ _ HF). apply firstn_all. }
    split; intros Hw; rewrite Hw in *; simpl in *.
    + destruct HL as [HL _]. intros idx. rewrite HL, EL, ER. split.
      * intros [H1 H2]. split; auto. intros H3. apply H2.
        rewrite (Hall _ _ _ _ H1). apply P5; auto.
      * intros [H1 H2]. split; auto. rewrite (Hall _ _ _ _ H1). intros H3.
        apply P5 in H3. tauto.
    + destruct HR as [HR _]. intros idx. rewrite HR, EL, ER. split.
      * intros [H1 H2]. split; auto. intros H3. apply H2.
        rewrite (Hall _ _ _ _ H1). apply P5; auto.
      * intros [H1 H2]. split; auto. rewrite (Hall _ _ _ _ H1). intros H3.
        apply P5 in H3. tauto.
  - destruct rs as [|R rs]; [discriminate|]. cbn [interLoop].
    pose proof Hpre as (P1 & P2 & P3 & P4 & P5).
    assert (HL' : dimOk L) by (rewrite EL in HokL; apply Forall_app in HokL; destruct HokL as [_ H]; inversion H; auto).
    assert (HR' : dimOk R) by (rewrite ER in HokR; apply Forall_app in HokR; destruct HokR as [_ H]; inversion H; auto).
    assert (Hstop : forall LC', sideInv wl LHS lp Xs LC' -> 
        Forall (pieceOk LHS) LC' /\ Forall (pieceOk RHS) RC /\
        (forall idx, idxAny LC' idx -> inDims (rDims LHS) idx /\ ~ inDims (rDims RHS) idx) /\
        (forall idx, idxAny RC idx -> inDims (rDims RHS) idx /\ ~ inDims (rDims LHS) idx)).
    { intros LC' HLC'.
      split; [eapply side_pieces; eauto|]. split; [eapply side_pieces; eauto|].
      split.
      - apply (side_subset wl LHS RHS lp (L :: ls) rp (R :: rs) Xs LC'); auto.
        intros; apply P5; auto.
      - apply (side_subset wr RHS LHS rp (R :: rs) lp (L :: ls) Xs RC); auto.
        intros; apply P5; auto. }
    destruct (Hstop LC HL) as (S1 & S2 & S3 & S4).
    destruct (dSize L =? dSize R) eqn:Esz; simpl.
    2:{ repeat (split; [assumption|]); exact I. }
    pose proof (dimIntersect_ok dio Hdio L R HL' HR') as HD.
    destruct (dimIntersect dio L R) as [X|].
    2:{ repeat (split; [assumption|]). intros idx HiL HiR.
        rewrite EL in HiL. rewrite ER in HiR. apply inDims_app in HiL. apply inDims_app in HiR.
        rewrite <- Hlp in HiR. destruct HiL as [_ HiL], HiR as [_ HiR].
        destruct (skipn (length lp) idx) as [|j rest]; inversion HiL; inversion HiR; subst.
        eapply HD; eauto. }
    destruct HD as (HX1 & HX2 & HX3 & HX4 & HX5).
    assert (HeX : dEnd X <= dEnd L) by (destruct HX3 as (? & ? & ? & ? & ? & ? & ?); auto).
    assert (HLstep : forall cl, (if wl then difference L X Th else Some []) = Some cl ->
         sideInv wl LHS (lp ++ [L]) (Xs ++ [X]) (LC ++ complOf LHS (length lp) cl)).
    { intros cl. destruct wl; simpl in *.
      - intros Hd. eapply compl_step; eauto. intros i1 Hi1. apply P5 in Hi1; tauto.
      - intros Hd. injection Hd as <-. subst LC. reflexivity. }
    assert (HRstep : forall cr, (if wr then difference R X Th else Some []) = Some cr ->
         sideInv wr RHS (rp ++ [R]) (Xs ++ [X]) (RC ++ complOf RHS (length rp) cr)).
    { intros cr. destruct wr; simpl in *.
      - intros Hd. eapply compl_step; eauto; [lia|]. intros i1 Hi1. apply P5 in Hi1; tauto.
      - intros Hd. injection Hd as <-. subst RC. reflexivity. }
    pose proof (prefix_step lp rp Xs L R X Hpre HX5 HX2 HeX HX1) as Hpre'.
    pose proof Hpre' as (Q1 & Q2 & Q3 & Q4 & Q5).
    destruct (if wl then difference L X Th else Some []) as [cl|].
    2:{ repeat (split; [assumption|]); exact I. }
    specialize (HLstep cl eq_refl).
    assert (EL' : rDims LHS = (lp ++ [L]) ++ ls) by (rewrite <- app_assoc; exact EL).
    assert (ER' : rDims RHS = (rp ++ [R]) ++ rs) by (rewrite <- app_assoc; exact ER).
    assert (Hlp' : length (lp ++ [L]) = length (rp ++ [R])) by (rewrite !app_length; simpl; lia).
    destruct (if wr then difference R X Th else Some []) as [cr|].
    2:{ split; [eapply side_pieces; eauto|]. split; [auto|].
        split; [apply (side_subset wl LHS RHS (lp ++ [L]) ls (rp ++ [R]) rs (Xs ++ [X])); auto; intros; apply Q5; auto|].
        split; [auto|exact I]. }
    specialize (HRstep cr eq_refl).
    replace (S (length lp)) with (length (lp ++ [L])) by (rewrite app_length; simpl; lia).
    replace (X :: rev Xs) with (rev (Xs ++ [X])) by (rewrite rev_app_distr; reflexivity).
    rewrite Hlp at 2.
    apply (IH rs (lp ++ [L]) (rp ++ [R]) (Xs ++ [X])); auto.
Qed.
End Loop.
