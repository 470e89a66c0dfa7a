(** Proofs about the rewriter of Fortran sources (C100). *)
From Coq Require Import ZArith List Bool Lia.
From Verif Require Import RewriterModel FlangRwModel FlangRwSpec.
Import ListNotations.
Local Open Scope Z_scope.

(** ** Ranges *)
Lemma extend_in : forall R f p g a b, NoDup (map fst R) -> In (g, (a, b)) (extend R f p) ->
  (g <> f /\ In (g, (a, b)) R) \/
  (g = f /\ ((exists a' b', In (f, (a', b')) R /\ a = Z.min a' p /\ b = Z.max b' p) \/
             (~ In f (map fst R) /\ a = p /\ b = p))).
Proof.
  induction R as [|[h [c d]] R IH]; intros f p g a b N H; cbn [extend] in H.
  - destruct H as [H | []]. injection H as <- <- <-. right. split; [reflexivity|]. right. split; [intros []|lia].
  - cbn [map fst] in N. apply NoDup_cons_iff in N. destruct N as [Nh N].
    destruct (Nat.eqb_spec h f) as [E | E].
    + destruct H as [H | H].
      * injection H as <- <- <-. right. split; [exact E|]. left. exists c, d. rewrite E. cbn [In]. tauto.
      * left. split; [|right; exact H]. intros ->. apply Nh. rewrite E. apply (in_map fst) in H. exact H.
    + destruct H as [H | H].
      * injection H as <- <- <-. left. split; [exact E|left; reflexivity].
      * destruct (IH _ _ _ _ _ N H) as [[A B] | [A [(a' & b' & B & C) | (B & C)]]].
        -- left. split; [exact A|right; exact B].
        -- right. split; [exact A|]. left. exists a', b'. split; [right; exact B|exact C].
        -- right. split; [exact A|]. right. split; [|exact C]. cbn [map fst In]. intros [X | X]; [auto|auto].
Qed.
Lemma extend_fst : forall R f p g, In g (map fst (extend R f p)) <-> In g (map fst R) \/ g = f.
Proof.
  induction R as [|[h [c d]] R IH]; intros f p g; cbn [extend].
  - cbn. intuition.
  - destruct (Nat.eqb_spec h f) as [-> | E]; cbn [map fst In].
    + intuition.
    + rewrite IH. tauto.
Qed.
Lemma extend_nodup : forall R f p, NoDup (map fst R) -> NoDup (map fst (extend R f p)).
Proof.
  induction R as [|[h [c d]] R IH]; intros f p N; cbn [extend].
  - cbn. constructor; [intros []|constructor].
  - destruct (Nat.eqb_spec h f) as [E | E]; cbn [map fst] in *; [exact N|].
    apply NoDup_cons_iff in N. destruct N as [A B]. constructor; [|apply IH; exact B].
    rewrite extend_fst. intros [X | X]; [auto|auto].
Qed.
Definition rinv (cooked : list char) (R : list (nat * (Z * Z))) : Prop :=
  NoDup (map fst R) /\
  (forall f a b, In (f, (a, b)) R -> atFile cooked f a /\ atFile cooked f b /\ forall p, atFile cooked f p -> a <= p <= b) /\
  (forall f p, atFile cooked f p -> In f (map fst R)).
Lemma atFile_app : forall c d f p, atFile (c ++ d) f p <-> atFile c f p \/ atFile d f p.
Proof.
  intros c d f p. unfold atFile. split.
  - intros [o H]. apply in_app_or in H. destruct H; [left|right]; eauto.
  - intros [[o H] | [o H]]; exists o; apply in_or_app; auto.
Qed.
Lemma ranges_inv : forall cooked, rinv cooked (ranges cooked).
Proof.
  intros cooked. unfold ranges. induction cooked as [|c cooked IH] using rev_ind.
  - cbn. split; [constructor|]. split; [intros f a b []|]. intros f p [o []].
  - rewrite fold_left_app. cbn [fold_left]. set (R := fold_left _ cooked []) in *.
    destruct c as [q [[f o]|]]; cbn [snd fst].
    + destruct IH as (N & A & B). split; [apply extend_nodup; exact N|]. split.
      * intros g a b H.
        assert (Q : forall h p, atFile (cooked ++ [(q, Some (f, o))]) h p <-> atFile cooked h p \/ (h = f /\ p = q)).
        { intros h p. rewrite atFile_app. apply or_iff_compat_l. unfold atFile. split.
          - intros [o' [X | []]]. injection X as <- <- <-. auto.
          - intros [-> ->]. exists o. left. reflexivity. }
        destruct (extend_in _ _ _ _ _ _ N H) as [[E I0] | [E [(a' & b' & I0 & -> & ->) | (NI & -> & ->)]]].
        -- destruct (A _ _ _ I0) as (A1 & A2 & A3). rewrite !Q. split; [auto|]. split; [auto|].
           intros p Hp. apply Q in Hp. destruct Hp as [Hp | [X _]]; [auto|contradiction].
        -- subst g. destruct (A _ _ _ I0) as (A1 & A2 & A3). rewrite !Q.
           split; [destruct (Z.min_spec a' q) as [[_ ->] | [_ ->]]; auto|].
           split; [destruct (Z.max_spec b' q) as [[_ ->] | [_ ->]]; auto|].
           intros p Hp. apply Q in Hp. destruct Hp as [Hp | [_ ->]]; [apply A3 in Hp; lia|lia].
        -- subst g. rewrite !Q. split; [auto|]. split; [auto|].
           intros p Hp. apply Q in Hp. destruct Hp as [Hp | [_ ->]]; [|lia]. apply B in Hp. contradiction.
      * intros g p H. apply extend_fst. apply atFile_app in H. destruct H as [H | [o' [X | []]]].
        -- left. eauto.
        -- injection X as <- <- <-. right. reflexivity.
    + destruct IH as (N & A & B).
      assert (Q : forall h p, atFile (cooked ++ [(q, None)]) h p <-> atFile cooked h p).
      { intros h p. rewrite atFile_app. split; [|auto]. intros [X | [o' [X | []]]]; [exact X|discriminate]. }
      split; [exact N|]. split.
      * intros f a b H. destruct (A _ _ _ H) as (A1 & A2 & A3). rewrite !Q. split; [auto|]. split; [auto|].
        intros p Hp. apply Q in Hp. auto.
      * intros f p H. apply Q in H. eauto.
Qed.
Lemma covered_range : forall cooked f p,
  covered cooked f p <-> exists a b, In (f, (a, b)) (ranges cooked) /\ a <= p <= b.
Proof.
  intros cooked f p. destruct (ranges_inv cooked) as (N & A & B). split.
  - intros (p1 & p2 & H1 & H2 & H). pose proof (B _ _ H1) as I0. apply in_map_iff in I0.
    destruct I0 as ([f' [a b]] & E & I0). cbn in E. subst f'. exists a, b. split; [exact I0|].
    destruct (A _ _ _ I0) as (_ & _ & A3). apply A3 in H1. apply A3 in H2. lia.
  - intros (a & b & I0 & H). destruct (A _ _ _ I0) as (A1 & A2 & A3). exists a, b. auto.
Qed.

(** ** Invariant of a rewriter *)
Definition sig (fs : list file) : list (nat * (Z * Z)) := map (fun f => (fid f, (lo f, hi f))) fs.
Lemma sig_update : forall id r fs, sig (update id r fs) = sig fs.
Proof.
  intros id r fs. unfold sig, update. rewrite map_map. apply map_ext. intros f.
  destruct (Nat.eqb (fid f) id); reflexivity.
Qed.
Lemma sig_init : forall content R, sig (map (initBuffer content) R) = R.
Proof.
  intros content R. unfold sig. rewrite map_map. rewrite <- (map_id R) at 2. apply map_ext.
  intros [f [a b]]. reflexivity.
Qed.
Lemma sig_fid : forall fs, map fst (sig fs) = map fid fs.
Proof. intros fs. unfold sig. rewrite map_map. reflexivity. Qed.
Lemma in_sig : forall fs f, In f fs -> In (fid f, (lo f, hi f)) (sig fs).
Proof. intros fs f H. unfold sig. apply (in_map (fun f => (fid f, (lo f, hi f)))) in H. exact H. Qed.
Lemma in_sig_inv : forall fs i a b, In (i, (a, b)) (sig fs) -> exists f, In f fs /\ fid f = i /\ lo f = a /\ hi f = b.
Proof.
  intros fs i a b H. unfold sig in H. apply in_map_iff in H. destruct H as (f & E & H).
  injection E as <- <- <-. exists f. auto.
Qed.
Definition disj (R : list (nat * (Z * Z))) : Prop :=
  forall f a b g c d, In (f, (a, b)) R -> In (g, (c, d)) R -> f <> g -> b < c \/ d < a.
Lemma disjointb_disj : forall fs, disjointb fs = true -> disj (sig fs).
Proof.
  induction fs as [|x fs IH]; intros H; [intros f a b g c d []|].
  cbn [disjointb] in H. apply andb_true_iff in H. destruct H as [H1 H2]. specialize (IH H2).
  rewrite forallb_forall in H1.
  assert (K : forall g c d, In (g, (c, d)) (sig fs) -> hi x < c \/ d < lo x).
  { intros g c d H. apply in_sig_inv in H. destruct H as (y & Y & <- & <- & <-). apply H1 in Y.
    apply orb_true_iff in Y. destruct Y as [Y | Y]; apply Z.ltb_lt in Y; lia. }
  intros f a b g c d Hf Hg N. cbn [sig map In] in Hf, Hg.
  destruct Hf as [Hf | Hf], Hg as [Hg | Hg].
  - congruence.
  - injection Hf as <- <- <-. eapply K; exact Hg.
  - injection Hg as <- <- <-. apply K in Hf. lia.
  - eapply IH; eauto.
Qed.
Lemma disj_disjointb : forall fs, NoDup (map fid fs) -> disj (sig fs) -> disjointb fs = true.
Proof.
  induction fs as [|x fs IH]; intros N H; [reflexivity|].
  cbn [map] in N. apply NoDup_cons_iff in N. destruct N as [Nx N].
  cbn [disjointb]. apply andb_true_iff. split.
  - apply forallb_forall. intros y Y. apply orb_true_iff.
    destruct (H (fid x) (lo x) (hi x) (fid y) (lo y) (hi y)) as [K | K].
    + left. reflexivity.
    + right. apply in_sig. exact Y.
    + intros E. apply Nx. rewrite E. apply in_map. exact Y.
    + left. apply Z.ltb_lt. exact K.
    + right. apply Z.ltb_lt. exact K.
  - apply IH; [exact N|]. intros f a b g c d Hf Hg. apply (H f a b g c d); right; assumption.
Qed.
Definition good (cooked : list char) (fs : list file) : Prop := sig fs = ranges cooked /\ disj (ranges cooked).
Lemma good_range : forall cooked fs f, good cooked fs -> In f fs -> lo f <= hi f.
Proof.
  intros cooked fs f [S0 _] H. apply in_sig in H. rewrite S0 in H.
  destruct (ranges_inv cooked) as (_ & A & _). destruct (A _ _ _ H) as (A1 & _ & A3). apply A3 in A1. lia.
Qed.
Lemma good_nodup : forall cooked fs, good cooked fs -> NoDup (map fid fs).
Proof. intros cooked fs [S0 _]. rewrite <- sig_fid, S0. apply (ranges_inv cooked). Qed.
Lemma nodup_eq : forall fs f g, NoDup (map fid fs) -> In f fs -> In g fs -> fid f = fid g -> f = g.
Proof.
  induction fs as [|x fs IH]; intros f g N Hf Hg E; [destruct Hf|].
  cbn [map] in N. apply NoDup_cons_iff in N. destruct N as [Nx N].
  destruct Hf as [-> | Hf], Hg as [-> | Hg]; [reflexivity| | |auto].
  - exfalso. apply Nx. rewrite E. apply in_map. exact Hg.
  - exfalso. apply Nx. rewrite <- E. apply in_map. exact Hf.
Qed.
Lemma good_covered : forall cooked fs f p, good cooked fs ->
  (covered cooked f p <-> exists g, In g fs /\ fid g = f /\ lo g <= p <= hi g).
Proof.
  intros cooked fs f p [S0 _]. rewrite covered_range, <- S0. split.
  - intros (a & b & H & L). apply in_sig_inv in H. destruct H as (g & G & <- & <- & <-). exists g. auto.
  - intros (g & G & <- & L). exists (lo g), (hi g). split; [apply in_sig; exact G|exact L].
Qed.

Lemma find_some : forall x fs f, find x fs = Some f ->
  In f fs /\ x <= hi f /\ forall g, In g fs -> x <= hi g -> hi f <= hi g.
Proof.
  induction fs as [|y fs IH]; intros f H; cbn [find] in H; [discriminate|].
  destruct (find x fs) as [g|] eqn:F.
  - destruct (IH _ eq_refl) as (A & B & C).
    destruct ((x <=? hi y) && (hi y <? hi g)) eqn:K; injection H as <-.
    + apply andb_true_iff in K. destruct K as [K1 K2]. apply Z.leb_le in K1. apply Z.ltb_lt in K2.
      split; [left; reflexivity|]. split; [exact K1|]. intros z [<- | Z0] L; [lia|]. specialize (C _ Z0 L). lia.
    + split; [right; exact A|]. split; [exact B|]. intros z [<- | Z0] L; [|auto].
      apply andb_false_iff in K. destruct K as [K | K]; [apply Z.leb_gt in K; lia|apply Z.ltb_ge in K; lia].
  - destruct (Z.leb_spec x (hi y)) as [K | K]; [|discriminate]. injection H as <-.
    split; [left; reflexivity|]. split; [exact K|]. intros z [<- | Z0] L; [lia|].
    exfalso. clear IH K. induction fs as [|w fs IH]; [destruct Z0|].
    cbn [find] in F. destruct (find x fs); [destruct (_ && _); discriminate|].
    destruct (Z.leb_spec x (hi w)) as [K | K]; [discriminate|]. destruct Z0 as [<- | Z0]; [lia|auto].
Qed.
Lemma find_none : forall x fs, find x fs = None -> forall g, In g fs -> hi g < x.
Proof.
  intros x fs. induction fs as [|w fs IH]; intros F g G; [destruct G|].
  cbn [find] in F. destruct (find x fs); [destruct (_ && _); discriminate|].
  destruct (Z.leb_spec x (hi w)) as [K | K]; [discriminate|]. destruct G as [<- | G]; [lia|auto].
Qed.
Lemma good_unique : forall cooked fs f g p, good cooked fs -> In f fs -> In g fs ->
  lo f <= p <= hi f -> lo g <= p <= hi g -> f = g.
Proof.
  intros cooked fs f g p G Hf Hg Lf Lg. apply (nodup_eq fs); auto; [eapply good_nodup; eauto|].
  destruct (Nat.eq_dec (fid f) (fid g)) as [E | E]; [exact E|exfalso].
  destruct G as [S0 D]. apply in_sig in Hf. apply in_sig in Hg. rewrite S0 in Hf, Hg.
  destruct (D _ _ _ _ _ _ Hf Hg E); lia.
Qed.
Lemma find_contains : forall cooked fs f p, good cooked fs -> In f fs -> lo f <= p <= hi f -> find p fs = Some f.
Proof.
  intros cooked fs f p G Hf L. destruct (find p fs) as [g|] eqn:F.
  - destruct (find_some _ _ _ F) as (A & B & C). f_equal.
    apply (nodup_eq fs); auto; [eapply good_nodup; eauto|].
    destruct (Nat.eq_dec (fid g) (fid f)) as [E | E]; [exact E|exfalso].
    pose proof (C _ Hf (proj2 L)). pose proof (good_range _ _ _ G A). pose proof (good_range _ _ _ G Hf).
    destruct G as [S0 D]. apply in_sig in Hf. apply in_sig in A. rewrite S0 in Hf, A.
    destruct (D _ _ _ _ _ _ A Hf E); lia.
  - apply (find_none _ _ F) in Hf. lia.
Qed.


(** ** The constructor *)
Lemma setAt_ok : forall m i v, 0 <= i < zlen m ->
  exists m', setAt m i v = Some m' /\ zlen m' = zlen m /\
    forall j, at_ m' j = if j =? i then Some v else at_ m j.
Proof.
  intros m i v H. unfold setAt.
  replace ((0 <=? i) && (i <? zlen m)) with true by (symmetry; apply andb_true_iff; split; [apply Z.leb_le|apply Z.ltb_lt]; lia).
  unfold zlen in *.
  assert (L : length (firstn (Z.to_nat i) m) = Z.to_nat i) by (apply firstn_length_le; lia).
  assert (L' : length (firstn (Z.to_nat i) m ++ v :: skipn (S (Z.to_nat i)) m) = length m).
  { rewrite app_length, L. cbn [length]. rewrite skipn_length. lia. }
  eexists. split; [reflexivity|]. split; [rewrite L'; reflexivity|].
  intros j. unfold at_, zlen. rewrite L'.
  destruct (Z.eqb_spec j i) as [-> | E].
  - replace ((0 <=? i) && (i <? Z.of_nat (length m))) with true by (symmetry; apply andb_true_iff; split; [apply Z.leb_le|apply Z.ltb_lt]; lia).
    rewrite nth_error_app2 by lia. rewrite L, Nat.sub_diag. reflexivity.
  - destruct ((0 <=? j) && (j <? Z.of_nat (length m))) eqn:K; [|reflexivity].
    apply andb_true_iff in K. destruct K as [K1 K2]. apply Z.leb_le in K1. apply Z.ltb_lt in K2.
    destruct (Z_lt_le_dec j i) as [Lt | Ge].
    + rewrite nth_error_app1 by lia. rewrite <- (firstn_skipn (Z.to_nat i) m) at 2.
      rewrite nth_error_app1 by lia. reflexivity.
    + rewrite nth_error_app2 by lia. rewrite L.
      replace (Z.to_nat j - Z.to_nat i)%nat with (S (Z.to_nat j - S (Z.to_nat i))) by lia. cbn [nth_error].
      rewrite <- (firstn_skipn (S (Z.to_nat i)) m) at 2.
      rewrite nth_error_app2 by (rewrite firstn_length_le; lia).
      rewrite firstn_length_le by lia. reflexivity.
Qed.
Lemma mapAt_ok : forall f p o, zlen (mapping (frw f)) = 2 * (hi f - lo f + 1) -> lo f <= p <= hi f ->
  exists r, mapAt f p o = Some r /\ buf r = buf (frw f) /\ zlen (mapping r) = zlen (mapping (frw f)) /\
    forall j, at_ (mapping r) j = if (j =? 2 * (p - lo f)) || (j =? 2 * (p - lo f) + 1) then Some o else at_ (mapping (frw f)) j.
Proof.
  intros f p o L H. unfold mapAt.
  destruct (setAt_ok (mapping (frw f)) (2 * (p - lo f)) o) as (m & E & Lm & A); [lia|]. rewrite E.
  destruct (setAt_ok m (2 * (p - lo f) + 1) o) as (m' & E' & Lm' & A'); [lia|]. rewrite E'.
  eexists. split; [reflexivity|]. cbn [buf mapping]. split; [reflexivity|]. split; [lia|].
  intros j. rewrite A'. destruct (Z.eqb_spec j (2 * (p - lo f) + 1)); [rewrite orb_true_r; reflexivity|].
  rewrite A. rewrite orb_false_r. reflexivity.
Qed.
Definition functional (cooked : list char) : Prop :=
  forall p f o o', In (p, Some (f, o)) cooked -> In (p, Some (f, o')) cooked -> o = o'.
Definition minv (content : nat -> list nat) (cooked done : list char) (fs : list file) : Prop :=
  good cooked fs /\
  (forall g, In g fs -> zlen (mapping (frw g)) = 2 * (hi g - lo g + 1) /\ buf (frw g) = content (fid g)) /\
  (functional cooked -> forall p f o, In (p, Some (f, o)) done -> forall g, In g fs -> fid g = f ->
     at_ (mapping (frw g)) (2 * (p - lo g)) = Some o /\ at_ (mapping (frw g)) (2 * (p - lo g) + 1) = Some o).
Lemma in_update : forall id r fs x, In x (update id r fs) ->
  exists y, In y fs /\ fid x = fid y /\ lo x = lo y /\ hi x = hi y /\ (fid y = id -> frw x = r) /\ (fid y <> id -> x = y).
Proof.
  intros id r fs x H. unfold update in H. apply in_map_iff in H. destruct H as (y & E & H). exists y.
  destruct (Nat.eqb_spec (fid y) id) as [K | K]; subst x; cbn [fid lo hi frw]; split; auto.
  - split; [reflexivity|]. split; [reflexivity|]. split; [reflexivity|]. split; [auto|]. contradiction.
  - split; [reflexivity|]. split; [reflexivity|]. split; [reflexivity|]. split; [contradiction|auto].
Qed.
Lemma mapAll_ok : forall content cooked todo done fs,
  (forall c, In c (done ++ todo) -> In c cooked) -> minv content cooked done fs ->
  exists fs', mapAll todo fs = Some fs' /\ minv content cooked (done ++ todo) fs'.
Proof.
  intros content cooked. induction todo as [|[p [[f o]|]] todo IH]; intros done fs Sub Inv; cbn [mapAll].
  - rewrite app_nil_r. eauto.
  - pose proof Inv as (G & B & M).
    assert (C : In (p, Some (f, o)) cooked) by (apply Sub; apply in_or_app; right; left; reflexivity).
    assert (Cov : covered cooked f p).
    { assert (atFile cooked f p) by (exists o; exact C). exists p, p. split; [assumption|]. split; [assumption|lia]. }
    apply (good_covered _ _ _ _ G) in Cov. destruct Cov as (g & Ig & Eg & Lg).
    rewrite (find_contains _ _ _ _ G Ig Lg).
    destruct (B _ Ig) as [B1 B2].
    destruct (mapAt_ok g p o B1 Lg) as (r & -> & R1 & R2 & R3).
    destruct (IH (done ++ [(p, Some (f, o))]) (update (fid g) r fs)) as (fs' & H1 & H2).
    + rewrite <- app_assoc. exact Sub.
    + split; [|split].
      * destruct G as [G1 G2]. split; [rewrite sig_update; exact G1|exact G2].
      * intros x X. apply in_update in X. destruct X as (y & Y & X1 & X2 & X3 & X4 & X5).
        destruct (Nat.eq_dec (fid y) (fid g)) as [E | E].
        -- assert (y = g) by (apply (nodup_eq fs); auto; eapply good_nodup; eauto). subst y.
           rewrite (X4 E), X1, X2, X3, R1, R2. auto.
        -- rewrite (X5 E). auto.
      * intros Fn p' f' o' H x X Ex. apply in_update in X. destruct X as (y & Y & X1 & X2 & X3 & X4 & X5).
        destruct (Nat.eq_dec (fid y) (fid g)) as [E | E].
        -- assert (y = g) by (apply (nodup_eq fs); auto; eapply good_nodup; eauto). subst y.
           rewrite (X4 E), X2, !R3.
           assert (C' : In (p', Some (f', o')) cooked).
           { apply Sub. apply in_app_or in H. apply in_or_app. destruct H as [H | [H | []]]; [left; exact H|].
             right. left. exact H. }
           destruct (Z.eq_dec p p') as [Ep | Ep].
           ++ subst p'. rewrite !Z.eqb_refl, orb_true_r. cbn [orb].
              assert (o = o') by (apply (Fn p f o o'); [exact C|]; rewrite <- Eg, <- X1, Ex; exact C').
              subst o'. auto.
           ++ apply in_app_or in H. destruct H as [H | [H | []]]; [|congruence].
              specialize (M Fn _ _ _ H g Ig). rewrite X1 in Ex. specialize (M Ex).
              replace (2 * (p' - lo g) =? 2 * (p - lo g)) with false by (symmetry; apply Z.eqb_neq; lia).
              replace (2 * (p' - lo g) =? 2 * (p - lo g) + 1) with false by (symmetry; apply Z.eqb_neq; lia).
              replace (2 * (p' - lo g) + 1 =? 2 * (p - lo g)) with false by (symmetry; apply Z.eqb_neq; lia).
              replace (2 * (p' - lo g) + 1 =? 2 * (p - lo g) + 1) with false by (symmetry; apply Z.eqb_neq; lia).
              exact M.
        -- assert (x = y) by (apply X5; exact E). subst x.
           apply in_app_or in H. destruct H as [H | [H | []]]; [eapply M; eauto|].
           injection H as <- <- <-. exfalso. apply E. congruence.
    + exists fs'. split; [exact H1|]. rewrite <- app_assoc in H2. exact H2.
  - destruct (IH (done ++ [(p, None)]) fs) as (fs' & H1 & H2).
    + rewrite <- app_assoc. exact Sub.
    + destruct Inv as (G & B & M). split; [exact G|]. split; [exact B|]. intros Fn p' f' o' H.
      apply in_app_or in H. destruct H as [H | [H | []]]; [eauto|discriminate].
    + exists fs'. split; [exact H1|]. rewrite <- app_assoc in H2. exact H2.
Qed.
Lemma init_inv : forall content cooked, disj (ranges cooked) ->
  minv content cooked [] (map (initBuffer content) (ranges cooked)).
Proof.
  intros content cooked D. split; [split; [apply sig_init|exact D]|]. split.
  - intros g H. apply in_map_iff in H. destruct H as ([f [a b]] & <- & H). cbn [initBuffer frw mapping buf hi lo fid].
    split; [|reflexivity]. destruct (ranges_inv cooked) as (_ & A & _). destruct (A _ _ _ H) as (A1 & _ & A3).
    apply A3 in A1. unfold zlen. rewrite repeat_length. lia.
  - intros _ p f o [].
Qed.
Lemma construct_inv : forall content mainFile cooked r, construct content mainFile cooked = Some r ->
  minv content cooked cooked (files r) /\ mainId r = mainFile /\ flag r = false.
Proof.
  intros content mainFile cooked r H. unfold construct in H.
  destruct (disjointb _ && _) eqn:D; [|discriminate]. apply andb_true_iff in D. destruct D as [D _].
  apply disjointb_disj in D. rewrite sig_init in D.
  destruct (mapAll_ok content cooked cooked [] _ (fun c h => h) (init_inv content cooked D)) as (fs & E & Inv).
  rewrite E in H. injection H as <-. auto.
Qed.
Lemma step_good : forall content cooked r o b r', good cooked (files r) -> step content r o = Some (b, r') ->
  good cooked (files r') /\ mainId r' = mainId r.
Proof.
  intros content cooked r o b r' [G D] H. unfold good. destruct o as [p n s | p s a | ]; cbn [step] in H.
  - unfold replace in H. destruct (findFile r p n) as [f|]; [|injection H as <- <-; auto].
    destruct (contains f p n); [|injection H as <- <-; auto].
    destruct (replaceText _ _ _ _); [|discriminate]. injection H as <- <-. cbn [files mainId]. rewrite sig_update. auto.
  - unfold insert in H. destruct (findFile r p 1) as [f|]; [|injection H as <- <-; auto].
    destruct (contains f p 1); [|injection H as <- <-; auto].
    destruct (insertText _ _ _ _); [|discriminate]. injection H as <- <-. cbn [files mainId]. rewrite sig_update. auto.
  - unfold hasModification in H. destruct (flag r); injection H as <- <-; auto.
Qed.
Lemma reached_good : forall content mainFile cooked h r, reached content mainFile cooked h r ->
  good cooked (files r) /\ mainId r = mainFile.
Proof.
  intros content mainFile cooked h r (r0 & C & H). apply construct_inv in C. destruct C as ((G & _) & M & _).
  revert r0 G M H. induction h as [|o h IH]; intros r0 G M H; cbn [run] in H.
  - injection H as <-. auto.
  - destruct (step content r0 o) as [[b r1]|] eqn:E; [|discriminate].
    destruct (step_good _ _ _ _ _ _ G E) as [G1 M1]. apply (IH r1); [exact G1|congruence|exact H].
Qed.

(** ** Texts *)
Lemma find_fid : forall fs g, NoDup (map fid fs) -> In g fs -> List.find (fun x => Nat.eqb (fid x) (fid g)) fs = Some g.
Proof.
  intros fs g N H. destruct (List.find _ fs) as [x|] eqn:F.
  - pose proof (List.find_some _ _ F) as [X E]. apply Nat.eqb_eq in E.
    f_equal. apply (nodup_eq fs); auto.
  - pose proof (List.find_none _ _ F _ H) as E. cbn in E. rewrite Nat.eqb_refl in E. discriminate.
Qed.
Lemma text_in : forall r g, NoDup (map fid (files r)) -> In g (files r) -> text r (fid g) = Some (buf (frw g)).
Proof. intros r g N H. unfold text. rewrite (find_fid _ _ N H). reflexivity. Qed.
Lemma text_inv : forall r f t, text r f = Some t -> exists g, In g (files r) /\ fid g = f /\ buf (frw g) = t.
Proof.
  intros r f t H. unfold text in H. destruct (List.find _ _) as [g|] eqn:F; [|discriminate].
  apply List.find_some in F. destruct F as [A B]. apply Nat.eqb_eq in B. injection H as <-. eauto.
Qed.
Lemma text_update : forall r fl id t g, text (Rewriter (update id t (files r)) (mainId r) fl) g =
  if Nat.eqb g id then match text r g with Some _ => Some (buf t) | None => None end else text r g.
Proof.
  intros [fs m fl0] fl id t g. unfold text. cbn [files mainId]. induction fs as [|x fs IH]; cbn [update map List.find].
  - destruct (Nat.eqb g id); reflexivity.
  - fold (update id t fs). destruct (Nat.eqb_spec (fid x) id) as [E | E]; cbn [fid].
    + destruct (Nat.eqb_spec (fid x) g) as [K | K].
      * replace (Nat.eqb g id) with true by (symmetry; apply Nat.eqb_eq; congruence). reflexivity.
      * exact IH.
    + destruct (Nat.eqb_spec (fid x) g) as [K | K].
      * replace (Nat.eqb g id) with false by (symmetry; apply Nat.eqb_neq; congruence). reflexivity.
      * exact IH.
Qed.

Theorem created : C100_created_claim.
Proof.
  intros content base mainFile cooked (V1 & V2 & (pm & V3) & V4).
  assert (D : disj (ranges cooked)).
  { intros f a b g c d Hf Hg N. destruct (Z_lt_le_dec b c) as [L | L]; [auto|]. destruct (Z_lt_le_dec d a) as [L' | L']; [auto|].
    exfalso. apply N. destruct (ranges_inv cooked) as (_ & A & _).
    destruct (A _ _ _ Hf) as (A1 & _ & A3). destruct (A _ _ _ Hg) as (B1 & _ & B3). apply A3 in A1. apply B3 in B1.
    apply (V2 f g (Z.max a c)); apply covered_range; [exists a, b|exists c, d]; split; auto; lia. }
  pose proof (init_inv content cooked D) as I0.
  destruct (mapAll_ok content cooked cooked [] _ (fun c h => h) I0) as (fs & E & Inv).
  assert (K : construct content mainFile cooked = Some (Rewriter fs mainFile false)).
  { unfold construct. rewrite disj_disjointb.
    - cbn [andb]. replace (existsb _ _) with true; [rewrite E; reflexivity|]. symmetry. apply existsb_exists.
      destruct (ranges_inv cooked) as (_ & _ & B). apply B in V3. apply in_map_iff in V3.
      destruct V3 as ([f [a b]] & X & V3). cbn in X. subst f. exists (initBuffer content (mainFile, (a, b))).
      split; [apply in_map; exact V3|]. cbn. apply Nat.eqb_refl.
    - eapply good_nodup. apply I0.
    - rewrite sig_init. exact D. }
  eexists. split; [exact K|]. destruct Inv as (G & B & _). split.
  - intros f p H. assert (Cov : covered cooked f p) by (exists p, p; split; [exact H|]; split; [exact H|lia]).
    apply (good_covered _ _ _ _ G) in Cov. destruct Cov as (g & Ig & <- & _).
    rewrite text_in; [|eapply good_nodup; exact G|exact Ig]. f_equal. apply B. exact Ig.
  - intros f H. destruct (text _ f) as [t|] eqn:T; [exfalso|reflexivity].
    apply text_inv in T. cbn [files] in T. destruct T as (g & Ig & Eg & _).
    destruct G as [S0 _]. apply in_sig in Ig. rewrite S0 in Ig. destruct (ranges_inv cooked) as (_ & A & _).
    destruct (A _ _ _ Ig) as (A1 & _). apply (H (lo g)). rewrite <- Eg. exact A1.
Qed.

Lemma inMain_some : forall cooked r p n f, good cooked (files r) -> inMain r p n = Some f ->
  In f (files r) /\ fid f = mainId r /\ lo f <= p /\ p + n - 1 <= hi f.
Proof.
  intros cooked r p n f G H. unfold inMain in H. apply List.find_some in H. destruct H as [A B].
  apply andb_true_iff in B. destruct B as [B C]. unfold contains in C. apply andb_true_iff in C. destruct C as [C D].
  apply Nat.eqb_eq in B. apply Z.leb_le in C. apply Z.leb_le in D. auto.
Qed.
Lemma inMain_none : forall r p n f, inMain r p n = None -> In f (files r) -> fid f = mainId r ->
  lo f <= p -> p + n - 1 <= hi f -> False.
Proof.
  intros r p n f H I0 E L1 L2. unfold inMain in H. pose proof (List.find_none _ _ H _ I0) as K. cbn in K.
  rewrite E, Nat.eqb_refl in K. cbn in K. unfold contains in K. apply andb_false_iff in K.
  destruct K as [K | K]; apply Z.leb_gt in K; lia.
Qed.
Theorem class_partial : C100_class_claim true.
Proof.
  intros content mainFile cooked h r p R Gap. destruct (reached_good _ _ _ _ _ R) as [G M]. specialize (Gap eq_refl).
  unfold isInclude, isMacroOrCompiler. destruct (inMain r p 1) as [f|] eqn:Mn.
  - destruct (inMain_some _ _ _ _ _ G Mn) as (A & B & C & D).
    assert (Cf : covered cooked (fid f) p) by (apply (good_covered _ _ _ _ G); exists f; split; [exact A|]; split; [reflexivity|lia]).
    split; split; intros K; try discriminate.
    + destruct K as (g & Ng & Cg). exfalso. apply Ng. apply (good_covered _ _ _ _ G) in Cg.
      destruct Cg as (x & X & Ex & Lx). assert (x = f) by (apply (good_unique cooked (files r) x f p G X A Lx); lia). congruence.
    + exfalso. apply K. eauto.
  - destruct (find p (files r)) as [f|] eqn:F.
    + destruct (find_some _ _ _ F) as (A & B & C). destruct Gap as [(g & Cg) | Gap].
      * pose proof Cg as Cg'. apply (good_covered _ _ _ _ G) in Cg. destruct Cg as (x & X & Ex & Lx).
        assert (g <> mainFile).
        { intros ->. apply (inMain_none _ _ _ x Mn X); [congruence|lia|lia]. }
        split; split; intros K; try discriminate; try reflexivity; [eauto|]. exfalso. apply K. eauto.
      * exfalso. pose proof G as [S0 _]. pose proof (in_sig _ _ A) as A'. rewrite S0 in A'.
        destruct (ranges_inv cooked) as (_ & Q & _). destruct (Q _ _ _ A') as (_ & Q2 & _). apply Gap in Q2. lia.
    + assert (NC : ~ exists f, covered cooked f p).
      { intros (g & Cg). apply (good_covered _ _ _ _ G) in Cg. destruct Cg as (x & X & _ & Lx).
        apply (find_none _ _ F) in X. lia. }
      split; split; intros K; try discriminate; try reflexivity; [|exact NC]. exfalso. destruct K as (g & _ & K). eauto.
Qed.

Lemma findFile_contains : forall cooked r p n f, good cooked (files r) -> findFile r p n = Some f ->
  contains f p n = true -> In f (files r) /\ lo f <= p /\ p + n - 1 <= hi f.
Proof.
  intros cooked r p n f G H C. unfold contains in C. apply andb_true_iff in C. destruct C as [C D].
  apply Z.leb_le in C. apply Z.leb_le in D. unfold findFile in H. destruct (inMain r p n) as [g|] eqn:M.
  - injection H as <-. apply (inMain_some _ _ _ _ _ G) in M. tauto.
  - apply find_some in H. tauto.
Qed.
Lemma findFile_ok : forall cooked r p n f, good cooked (files r) -> In f (files r) -> 1 <= n ->
  lo f <= p -> p + n - 1 <= hi f -> findFile r p n = Some f /\ contains f p n = true.
Proof.
  intros cooked r p n f G H N L1 L2. split.
  - unfold findFile. destruct (inMain r p n) as [g|] eqn:M.
    + apply (inMain_some _ _ _ _ _ G) in M. destruct M as (A & _ & B & C). f_equal.
      apply (good_unique cooked (files r) g f p G A H); lia.
    + apply (find_contains cooked); auto. lia.
  - unfold contains. apply andb_true_iff. split; apply Z.leb_le; lia.
Qed.
Theorem scope : C100_scope_claim.
Proof.
  intros content mainFile cooked h r o b r' R H f D. destruct (reached_good _ _ _ _ _ R) as [G M].
  destruct o as [p n s | p s a | ]; cbn [step] in H; cbn [place].
  - exists p, (p + n - 1). split; [reflexivity|]. intros L. unfold replace in H.
    destruct (findFile r p n) as [g|] eqn:F; [|injection H as <- <-; contradiction].
    destruct (contains g p n) eqn:C; [|injection H as <- <-; contradiction].
    destruct (replaceText _ _ _ _) as [t|]; [|discriminate]. injection H as <- <-.
    destruct (findFile_contains _ _ _ _ _ G F C) as (A & B1 & B2).
    rewrite text_update in D. destruct (Nat.eqb_spec f (fid g)) as [Ef | Ef]; [|exfalso; apply D; reflexivity]. rewrite Ef.
    split; apply (good_covered _ _ _ _ G); exists g; split; auto; split; auto; lia.
  - exists p, p. split; [reflexivity|]. intros L. unfold insert in H.
    destruct (findFile r p 1) as [g|] eqn:F; [|injection H as <- <-; contradiction].
    destruct (contains g p 1) eqn:C; [|injection H as <- <-; contradiction].
    destruct (insertText _ _ _ _) as [t|]; [|discriminate]. injection H as <- <-.
    destruct (findFile_contains _ _ _ _ _ G F C) as (A & B1 & B2).
    rewrite text_update in D. destruct (Nat.eqb_spec f (fid g)) as [Ef | Ef]; [|exfalso; apply D; reflexivity]. rewrite Ef.
    split; apply (good_covered _ _ _ _ G); exists g; split; auto; split; auto; lia.
  - exfalso. apply D. unfold hasModification in H. destruct (flag r); injection H as <- <-; reflexivity.
Qed.
Theorem reported_partial : C100_reported_claim true.
Proof.
  intros content mainFile cooked h r o p q b r' R Pl L Gr H. destruct (reached_good _ _ _ _ _ R) as [G M].
  destruct (Gr eq_refl) as (n & s & ->). cbn [place] in Pl. injection Pl as <-. cbn [step] in H. unfold replace in H.
  assert (K : (exists f, covered cooked f p /\ covered cooked f (p + n - 1)) ->
              exists f, findFile r p n = Some f /\ contains f p n = true).
  { intros (f & C1 & C2). apply (good_covered _ _ _ _ G) in C1. apply (good_covered _ _ _ _ G) in C2.
    destruct C1 as (x & X & Ex & Lx). destruct C2 as (y & Y & Ey & Ly).
    assert (x = y) by (apply (nodup_eq (files r)); auto; [eapply good_nodup; eauto|congruence]). subst y.
    exists x. apply (findFile_ok cooked); auto; lia. }
  destruct (findFile r p n) as [f|] eqn:F.
  - destruct (contains f p n) eqn:C.
    + destruct (replaceText _ _ _ _); [|discriminate]. injection H as <- <-. split; [discriminate|].
      intros NC. exfalso. apply NC. destruct (findFile_contains _ _ _ _ _ G F C) as (A & B1 & B2).
      exists (fid f). split; apply (good_covered _ _ _ _ G); exists f; split; auto; split; auto; lia.
    + injection H as <- <-. split; [|reflexivity]. intros _ E. destruct (K E) as (g & E1 & E2). congruence.
  - injection H as <- <-. split; [|reflexivity]. intros _ E. destruct (K E) as (g & E1 & E2). discriminate.
Qed.

(** ** Fresh edits *)
Lemma valid_functional : forall content base mainFile cooked, valid content base mainFile cooked -> functional cooked.
Proof.
  intros content base mainFile cooked (V & _) p f o o' H H'. apply V in H. apply V in H'. lia.
Qed.
Lemma fresh_map : forall content base mainFile cooked r f p, valid content base mainFile cooked ->
  construct content mainFile cooked = Some r -> atFile cooked f p ->
  exists g, In g (files r) /\ fid g = f /\ lo g <= p <= hi g /\ 0 <= lo g /\ hi g < 2 ^ 60 /\
    buf (frw g) = content f /\ 0 <= p - base f < Z.of_nat (length (content f)) /\
    at_ (mapping (frw g)) (2 * (p - lo g)) = Some (p - base f) /\ at_ (mapping (frw g)) (2 * (p - lo g) + 1) = Some (p - base f).
Proof.
  intros content base mainFile cooked r f p V H [o I0]. destruct (construct_inv _ _ _ _ H) as ((G & B & Mp) & _ & _).
  assert (C : covered cooked f p) by (assert (atFile cooked f p) by (exists o; exact I0); exists p, p; split; [assumption|]; split; [assumption|lia]).
  apply (good_covered _ _ _ _ G) in C. destruct C as (g & Ig & Eg & Lg).
  destruct (Mp (valid_functional _ _ _ _ V) _ _ _ I0 g Ig Eg) as [M1 M2].
  destruct V as (V & _). destruct (V _ _ _ I0) as (V1 & -> & V3).
  pose proof (in_sig _ _ Ig) as A. pose proof G as [S0 _]. rewrite S0 in A.
  destruct (ranges_inv cooked) as (_ & Q & _). destruct (Q _ _ _ A) as ((o1 & Q1) & (o2 & Q2) & _).
  apply V in Q1. apply V in Q2. destruct (B _ Ig) as [_ B2]. rewrite Eg in B2. exists g.
  repeat (split; [first [assumption | reflexivity | lia]|]). assumption.
Qed.
Lemma wrap_small : forall z, 0 <= z < 2 ^ 64 -> wrap z = z.
Proof. intros z H. unfold wrap, W. apply Z.mod_small. exact H. Qed.
Theorem replace_partial : C100_replace_claim true.
Proof.
  intros content base mainFile cooked r f p n s V C N Ls Cv1 Cv2 Ends. destruct (Ends eq_refl) as [E1 E2]. clear Ends.
  destruct (fresh_map _ _ _ _ _ _ _ V C E1) as (g & Ig & Eg & Lg & L0 & Hg & Bg & Og & M1 & _).
  destruct (fresh_map _ _ _ _ _ _ _ V C E2) as (g' & Ig' & Eg' & Lg' & _ & _ & _ & Og' & _ & M2).
  destruct (construct_inv _ _ _ _ C) as ((G & _ & _) & _ & _).
  assert (g' = g) by (apply (nodup_eq (files r)); auto; [eapply good_nodup; eauto|congruence]). subst g'.
  destruct (findFile_ok cooked r p n g G Ig N) as [F1 F2]; [lia|lia|].
  destruct V as (_ & _ & _ & V4). specialize (V4 f).
  assert (P64 : 2 ^ 64 = 16 * 2 ^ 60) by reflexivity.
  unfold replace. rewrite F1, F2. unfold replaceText.
  rewrite (wrap_small (2 * (p - lo g))) by lia.
  rewrite (wrap_small (2 * (p - lo g + n - 1) + 1)) by lia.
  replace (2 * (p - lo g + n - 1) + 1) with (2 * (p + n - 1 - lo g) + 1) by lia.
  rewrite M1, M2. rewrite (wrap_small (p + n - 1 - base f + 1)) by lia.
  rewrite (wrap_small (p + n - 1 - base f + 1 - (p - base f))) by lia.
  replace (p + n - 1 - base f + 1 - (p - base f)) with n by lia.
  unfold strReplace, zlen at 1. rewrite Bg.
  replace (p - base f <=? Z.of_nat (length (content f))) with true by (symmetry; apply Z.leb_le; lia).
  unfold zlen. rewrite Z.min_l by lia.
  eexists. split; [reflexivity|]. split.
  - rewrite text_update. rewrite <- Eg, Nat.eqb_refl.
    rewrite text_in; [|eapply good_nodup; eauto|exact Ig]. reflexivity.
  - intros g' Ng. rewrite text_update. replace (Nat.eqb g' (fid g)) with false by (symmetry; apply Nat.eqb_neq; congruence). reflexivity.
Qed.
Theorem insert_partial : C100_insert_claim true.
Proof.
  intros content base mainFile cooked r f p s after V C Ls Cv Ends. pose proof (Ends eq_refl) as E1. clear Ends.
  destruct (fresh_map _ _ _ _ _ _ _ V C E1) as (g & Ig & Eg & Lg & L0 & Hg & Bg & Og & M1 & M2).
  destruct (construct_inv _ _ _ _ C) as ((G & _ & _) & _ & _).
  destruct (findFile_ok cooked r p 1 g G Ig) as [F1 F2]; [lia|lia|lia|].
  assert (P64 : 2 ^ 64 = 16 * 2 ^ 60) by reflexivity.
  unfold insert. rewrite F1, F2. unfold insertText.
  rewrite (wrap_small (2 * (p - lo g))) by lia.
  rewrite (wrap_small (2 * (p - lo g) + 1)) by lia.
  assert (K : at_ (mapping (frw g)) (if after then 2 * (p - lo g) + 1 else 2 * (p - lo g)) = Some (p - base f)) by (destruct after; assumption).
  rewrite K. unfold strReplace, zlen at 1. rewrite Bg.
  replace (p - base f <=? Z.of_nat (length (content f))) with true by (symmetry; apply Z.leb_le; lia).
  unfold zlen. rewrite Z.min_l by lia. rewrite Z.add_0_r.
  eexists _, _. split; [reflexivity|]. split.
  - rewrite text_update. rewrite <- Eg, Nat.eqb_refl.
    rewrite text_in; [|eapply good_nodup; eauto|exact Ig]. reflexivity.
  - intros g' Ng. rewrite text_update. replace (Nat.eqb g' (fid g)) with false by (symmetry; apply Nat.eqb_neq; congruence). reflexivity.
Qed.

(** ** Modifications *)
Lemma changed_exists : forall content cooked r, good cooked (files r) ->
  (existsb (modified content) (files r) = true <-> changed content r).
Proof.
  intros content cooked r G. rewrite existsb_exists. unfold modified, changed. split.
  - intros (g & Ig & H). destruct (list_eq_dec _ _ _) as [E | E]; [discriminate|].
    exists (fid g), (buf (frw g)). split; [apply text_in; [eapply good_nodup; eauto|exact Ig]|congruence].
  - intros (f & t & T & N). apply text_inv in T. destruct T as (g & Ig & <- & <-). exists g. split; [exact Ig|].
    destruct (list_eq_dec _ _ _) as [E | E]; [congruence|reflexivity].
Qed.
Theorem noticed : C100_noticed_claim.
Proof.
  intros content mainFile cooked h r R H. destruct (reached_good _ _ _ _ _ R) as [G _]. unfold hasModification.
  destruct (flag r); [reflexivity|]. cbn [fst]. apply (changed_exists content cooked r G). exact H.
Qed.
Lemma run_flag : forall content h r r', ~ In Query h -> flag r = false -> run content r h = Some r' -> flag r' = false.
Proof.
  intros content. induction h as [|o h IH]; intros r r' N F H; cbn [run] in H.
  - injection H as <-. exact F.
  - destruct (step content r o) as [[b r1]|] eqn:E; [|discriminate]. apply (IH r1); [intros X; apply N; right; exact X| |exact H].
    destruct o as [p n s | p s a | ]; cbn [step] in E.
    + unfold replace in E. destruct (findFile r p n) as [f|]; [|injection E as <- <-; exact F].
      destruct (contains f p n); [|injection E as <- <-; exact F].
      destruct (replaceText _ _ _ _); [|discriminate]. injection E as <- <-. exact F.
    + unfold insert in E. destruct (findFile r p 1) as [f|]; [|injection E as <- <-; exact F].
      destruct (contains f p 1); [|injection E as <- <-; exact F].
      destruct (insertText _ _ _ _); [|discriminate]. injection E as <- <-. exact F.
    + exfalso. apply N. left. reflexivity.
Qed.
Theorem modified_partial : C100_modified_claim true.
Proof.
  intros content mainFile cooked h r R Q. destruct (reached_good _ _ _ _ _ R) as [G _].
  destruct R as (r0 & C & H). destruct (construct_inv _ _ _ _ C) as (_ & _ & F0).
  unfold hasModification. rewrite (run_flag _ _ _ _ (Q eq_refl) F0 H). cbn [fst].
  apply (changed_exists content cooked r G).
Qed.

(** ** An example: a main file (0), a macro at 7 and an included file (1) *)
Definition exContent (f : nat) : list nat := match f with O => [1; 2; 3; 4; 5]%nat | S O => [8; 9]%nat | _ => [] end.
Definition exBase (f : nat) : Z := match f with O => 1 | _ => 10 end.
Definition exCooked : list char :=
  [(1, Some (0%nat, 0)); (2, Some (0%nat, 1)); (7, None); (10, Some (1%nat, 0)); (11, Some (1%nat, 1)); (5, Some (0%nat, 4))].
Lemma ex_ranges : ranges exCooked = [(0%nat, (1, 5)); (1%nat, (10, 11))].
Proof. reflexivity. Qed.
Lemma ex_covered : forall f p, covered exCooked f p <-> (f = 0%nat /\ 1 <= p <= 5) \/ (f = 1%nat /\ 10 <= p <= 11).
Proof.
  intros f p. rewrite covered_range, ex_ranges. split.
  - intros (a & b & [H | [H | []]] & L); injection H as <- <- <-; [left|right]; split; auto.
  - intros [[-> L] | [-> L]]; [exists 1, 5|exists 10, 11]; split; auto; cbn; auto.
Qed.
Lemma ex_valid : valid exContent exBase 0%nat exCooked.
Proof.
  split; [|split; [|split]].
  - intros p f o H. cbn in H.
    destruct H as [H | [H | [H | [H | [H | [H | []]]]]]]; try discriminate H; injection H as <- <- <-; cbn; lia.
  - intros f g p H1 H2. apply ex_covered in H1. apply ex_covered in H2. lia.
  - exists 1, 0. left. reflexivity.
  - intros [|[|f]]; cbn; lia.
Qed.
Definition exRw : rewriter :=
  Rewriter [File 0%nat 1 5 (mkRW [1; 2; 3; 4; 5]%nat [0; 0; 1; 1; 0; 0; 0; 0; 4; 4]);
            File 1%nat 10 11 (mkRW [8; 9]%nat [0; 0; 1; 1])] 0%nat false.
Lemma ex_construct : construct exContent 0%nat exCooked = Some exRw.
Proof. reflexivity. Qed.
Lemma ex_reached : reached exContent 0%nat exCooked [] exRw.
Proof. exists exRw. split; reflexivity. Qed.

Theorem class_refuted : ~ C100_class_claim false.
Proof.
  intros H. destruct (H _ _ _ _ _ 7 ex_reached) as [A _]; [discriminate|].
  assert (K : isInclude exRw 7 = true) by reflexivity. apply A in K. destruct K as (f & _ & C).
  apply ex_covered in C. lia.
Qed.
Theorem reported_refuted : ~ C100_reported_claim false.
Proof.
  intros H. destruct (insert exRw 10 [7%nat] true) as [[b r']|] eqn:E; [|discriminate E].
  assert (B : b = true) by (vm_compute in E; injection E as <- _; reflexivity).
  destruct (H _ _ _ _ _ (Ins 10 [7%nat] true) 10 10 b r' ex_reached eq_refl) as [A _]; [lia|discriminate|exact E|].
  apply A; [exact B|]. exists 1%nat. split; apply ex_covered; lia.
Qed.
Theorem replace_refuted : ~ C100_replace_claim false.
Proof.
  intros H.
  destruct (H _ _ _ _ _ 0%nat 2 2 [7%nat] ex_valid ex_construct) as (r' & E & T & _); try (cbn; lia); try discriminate.
  - apply ex_covered. lia.
  - apply ex_covered. lia.
  - vm_compute in E. injection E as <-. vm_compute in T. discriminate.
Qed.
Theorem insert_refuted : ~ C100_insert_claim false.
Proof.
  intros H.
  destruct (H _ _ _ _ _ 0%nat 3 [7%nat] true ex_valid ex_construct) as (b & r' & E & T & _); try (cbn; lia); try discriminate.
  - apply ex_covered. lia.
  - vm_compute in E. injection E as _ <-. vm_compute in T. discriminate.
Qed.
Definition exHistory : list op := [Rep 2 1 [7%nat]; Query; Rep 2 1 [2%nat]].
Theorem modified_refuted : ~ C100_modified_claim false.
Proof.
  intros H. destruct (run exContent exRw exHistory) as [r|] eqn:E; [|discriminate E].
  assert (R : reached exContent 0%nat exCooked exHistory r) by (exists exRw; split; [reflexivity|exact E]).
  destruct (H _ _ _ _ _ R) as [A _]; [discriminate|].
  vm_compute in E. injection E as <-. specialize (A eq_refl). destruct A as (f & t & T & N).
  destruct f as [|[|f]]; cbn in T; [injection T as <-; apply N; reflexivity|injection T as <-; apply N; reflexivity|discriminate].
Qed.
